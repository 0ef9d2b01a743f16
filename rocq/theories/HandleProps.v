(** * C82: value, strong and weak references *)
From Coq Require Import List Arith Bool Lia.
From Verif Require Import HandleModel HandleSpec HandleProofs.
Import ListNotations.

Ltac lt_slot :=
  match goal with
  | E : slot ?st ?i = _ |- ?i < length (slots ?st) => apply (slot_in st i); rewrite E; discriminate
  end.

Section C82.
Variable V : Type.
Variable dflt : V.
Variable veqb : V -> V -> bool.
Notation step := (step dflt veqb).
Notation run := (run dflt veqb).
Notation reachable := (reachable dflt veqb).

Lemma reachable_WF : forall st, reachable st -> WF st.
Proof. intros st (ops & xs & H). eapply run_WF; [apply init_WF | exact H]. Qed.

Lemma reachable_step : forall st o st' x, reachable st -> step st o = Some (st', x) -> reachable st'.
Proof.
  intros st o st' x (ops & xs & RR) H. exists (ops ++ [o]), (xs ++ [x]).
  revert RR. generalize (@init V). revert xs.
  induction ops as [|o' ops IH]; cbn [HandleModel.run app]; intros xs s RR.
  - injection RR as <- <-. rewrite H. reflexivity.
  - destruct (step s o') as [[s1 y]|]; [|discriminate].
    destruct (run s1 ops) as [[s2 ys]|] eqn:E; [|discriminate]. injection RR as <- <-.
    rewrite (IH ys s1 E). reflexivity.
Qed.

(** An instance on the heap exists (its count of owners is positive) exactly
    as long as some value, strong or generic reference manages it: it is not
    destroyed early and does not leak. *)
Theorem C82_lifetime : forall st c v n, reachable st ->
  nth_error (cells st) c = Some (mkCell v (Counted n)) ->
  (alive st c = true <-> exists i, manages (slot st i) c = true) /\
  n = length (filter (fun r => manages r c) (slots st)).
Proof.
  intros st c v n R E. apply reachable_WF in R. split.
  - rewrite alive_instance by auto. unfold instance. rewrite E. rewrite <- managed_iff.
    destruct (managed st c); split; congruence.
  - rewrite (proj1 R _ _ _ E). induction (slots st) as [|r t IH]; simpl; auto.
    destruct (manages r c); simpl; auto.
Qed.

(** Every access yields what the variable refers to, or the documented
    exception: [NullReference] for null, [ExpiredReference] for a weak
    reference to an instance nobody manages any longer. *)
Theorem C82_access : forall st i, reachable st ->
  step st (Load i) =
  match view st i with
  | SeenVal v => Some (st, OVal v)
  | SeenNull => Some (st, OExn NullReference)
  | SeenExpired => Some (st, OExn ExpiredReference)
  | SeenDangling => None
  | SeenNothing => Some (st, OIll)
  end.
Proof. intros st i R. apply load_view. apply reachable_WF; auto. Qed.

(** isNull() and isExpired(). *)
Theorem C82_null_expired : forall st i, reachable st ->
  (forall b, step st (IsNull i) = Some (st, OBool b) ->
     (b = true <-> view st i = SeenNull \/ view st i = SeenExpired)) /\
  (forall b, step st (IsExpired i) = Some (st, OBool b) -> (b = true <-> view st i = SeenExpired)) /\
  (forall w, slot st i = RW w -> exists b b', step st (IsNull i) = Some (st, OBool b) /\
                                              step st (IsExpired i) = Some (st, OBool b')) /\
  (forall x, slot st i = RV x -> exists b, step st (IsNull i) = Some (st, OBool b)) /\
  (forall p, slot st i = RS p -> exists b, step st (IsNull i) = Some (st, OBool b)).
Proof.
  intros st i R. apply reachable_WF in R.
  unfold HandleModel.step, ret, view.
  destruct (slot st i) as [[[c|]|[c|]]|[c|]|[c|]|[[c|]|]|]; simpl target; simpl vget; unfold lock;
    rewrite ?alive_instance by auto; try destruct (instance st c);
    repeat apply conj; intros; try discriminate; eauto;
    match goal with H : Some _ = Some _ |- _ => injection H as <- end; simpl;
    split; try tauto; try discriminate; intros [X|X] || intros X; discriminate.
Qed.

(** A weak reference is valid as long as some reference manages its instance,
    and expired from then on. *)
Theorem C82_weak : forall st w c, reachable st -> slot st w = RW (Some c) ->
  ((exists i, manages (slot st i) c = true) -> exists v, view st w = SeenVal v) /\
  ((forall i, manages (slot st i) c = false) -> view st w = SeenExpired).
Proof.
  intros st w c R E. apply reachable_WF in R.
  pose proof (slot_ok st w R) as K. rewrite E in K. destruct K as (v & n & K).
  unfold view. rewrite E. unfold instance. rewrite K. split.
  - intros H. apply managed_iff in H. rewrite H. eauto.
  - intros H. destruct (managed st c) eqn:M; auto. apply managed_iff in M. destruct M as [i M].
    rewrite H in M. discriminate.
Qed.

(** Once nobody manages an instance, no operations bring it back. *)
Theorem C82_expired_forever : forall ops st st' xs c, reachable st ->
  on_heap st c -> (forall i, manages (slot st i) c = false) ->
  run st ops = Some (st', xs) -> forall i, manages (slot st' i) c = false.
Proof.
  intros ops st st' xs c R H M.
  assert (M0 : managed st c = false).
  { destruct (managed st c) eqn:E; auto. apply managed_iff in E. destruct E as [i E]. rewrite M in E. discriminate. }
  assert (L : c < length (cells st)).
  { destruct H as (v & n & E). apply nth_error_Some. congruence. }
  apply reachable_WF in R. clear M H. revert st R M0 L xs.
  induction ops as [|o ops IH]; simpl; intros st W M L xs H.
  - injection H as <- <-. intros i. eapply slot_not_managed; eauto.
  - destruct (step st o) as [[st1 x]|] eqn:E; [|discriminate].
    destruct (run st1 ops) as [[st2 ys]|] eqn:RR; [|discriminate]. injection H as <- <-.
    apply (IH st1) with (xs := ys); auto.
    + eapply step_WF; eauto.
    + eapply no_resurrection; eauto.
    + pose proof (step_cells_len _ _ _ _ _ _ E). lia.
Qed.

(** Programs that never wrap [this] never run into undefined behaviour,
    whatever they do. *)
Theorem C82_never_undefined : forall ops, (forall o, In o ops -> wraps_this o = false) ->
  exists st xs, run init ops = Some (st, xs) /\ forall i, view st i <> SeenDangling.
Proof.
  intros ops H.
  assert (B : forallb (fun o => negb (wraps_this o)) ops = true).
  { apply forallb_forall. intros o I. rewrite H; auto. }
  assert (N : noraw (@init V)) by (intros i c; destruct i; discriminate).
  pose proof (no_ub dflt veqb ops init init_WF N B) as U.
  destruct (run init ops) as [[st xs]|] eqn:E; [|congruence].
  exists st, xs. split; auto. intros i. apply noraw_view.
  - eapply run_WF; [apply init_WF | exact E].
  - eapply noraw_run; eauto.
Qed.

(** With wrapped [this] pointers, only the use of one whose instance is gone
    is undefined. *)
Theorem C82_undefined_only_dangling : forall st o, reachable st -> step st o = None ->
  exists i, In i (names o) /\ view st i = SeenDangling /\
    exists c, slot st i = RV (VRaw (Some c)) /\ instance st c = None.
Proof.
  intros st o R H. apply reachable_WF in R.
  destruct (ub_dangling dflt veqb st o R H) as (i & I1 & D). exists i. split; auto. split; auto.
  unfold view in D. pose proof (strong_instance st i) as SI.
  destruct (slot st i) as [[[c|]|[c|]]|[c|]|[c|]|[[c|]|]|]; simpl in *; try discriminate;
    destruct (instance st c) eqn:F; try discriminate.
  - destruct (SI c R eq_refl). congruence.
  - eauto.
  - destruct (SI c R eq_refl). congruence.
Qed.

(** ** What operations leave alone *)

(** Variables that are neither assigned nor moved from refer to what they
    referred to. *)
Theorem C82_bindings : forall st o st' x j, reachable st -> step st o = Some (st', x) ->
  j < length (slots st) -> ~ In j (rebinds o) -> slot st' j = slot st j.
Proof. intros. eapply step_slots; eauto. apply reachable_WF; auto. Qed.

(** The only instance whose value an operation changes is the one that the
    variable it stores through refers to, and that one gets the value. *)
Theorem C82_values : forall st o st' x c, reachable st -> step st o = Some (st', x) ->
  c < length (cells st) ->
  (forall d v w, stores st o = Some (d, v) -> x = ODone -> view st d = SeenVal w ->
     target (slot st d) = Some c -> content st' c = Some v) /\
  ((forall d v w, stores st o = Some (d, v) -> view st d = SeenVal w -> target (slot st d) <> Some c) ->
     content st' c = content st c).
Proof.
  intros st o st' x c R H L. apply reachable_WF in R. split.
  - intros d v w S -> K T. eapply step_content_stored; eauto.
  - intros N. eapply step_content_other; eauto.
Qed.

(** Operations that throw change nothing. *)
Theorem C82_exception_safe : forall st o st' e, step st o = Some (st', OExn e) -> st' = st.
Proof. intros. eapply exn_unchanged; eauto. Qed.

(** Every operation whose arguments have the right kinds, and that is not
    undefined, succeeds, except exactly in the documented cases. *)
Theorem C82_throws : forall st o st' x, reachable st -> step st o = Some (st', x) ->
  (x = OIll <-> ~ typed st o) /\
  (typed st o -> forall e, x = OExn e <-> throws st o e).
Proof.
  intros st o st' x R H. apply reachable_WF in R.
  assert (AS : forall r y e, slot st r = RV y -> asShared st y = Some (inr e) -> e = IllegalReference /\ unshareable st r).
  { intros r y e E F. unfold unshareable. destruct y as [p|[c|]]; simpl in F; try discriminate.
    - pose proof F as F0. destruct (nth_error (cells st) c) as [[v [n|b]]|] eqn:G; simpl in F; try discriminate.
      + destruct n; simpl in F; discriminate.
      + destruct b; [|discriminate]. split; [congruence|]. right. exists c. split; auto. exists v. auto.
    - split; [congruence|]. auto. }
  assert (AN : forall r y p, slot st r = RV y -> asShared st y = Some (inl p) -> ~ unshareable st r).
  { intros r y p E F [U|(c & U & v & L)]; rewrite E in U; injection U as ->; simpl in F; [discriminate|].
    rewrite L in F. discriminate. }
  assert (RN : forall i e, reach st (slot st i) = inr (Some e) ->
            is_kind st i [KValue; KStrong; KWeak] /\
            (e = NullReference /\ view st i = SeenNull \/ e = ExpiredReference /\ view st i = SeenExpired)).
  { intros i e E. unfold view, is_kind.
    destruct (slot st i) as [[[c|]|[c|]]|[c|]|[c|]|[[c|]|]|]; simpl in *; try discriminate.
    4: rewrite alive_instance in E by auto; destruct (instance st c); try discriminate.
    all: injection E as <-; split; [eexists; split; [reflexivity|simpl; tauto]|auto]. }
  assert (RX : forall i c, reach st (slot st i) = inl (Some c) ->
            is_kind st i [KValue; KStrong; KWeak] /\ view st i <> SeenNull /\ view st i <> SeenExpired).
  { intros i c E. unfold view, is_kind.
    destruct (slot st i) as [[[d|]|[d|]]|[d|]|[d|]|[[d|]|]|]; simpl in *; try discriminate.
    4: rewrite alive_instance in E by auto; destruct (instance st d) eqn:J; try discriminate.
    all: split; [eexists; split; [reflexivity|simpl; tauto]|]; try (destruct (instance st d)); split; discriminate. }
  assert (RB : forall i, reach st (slot st i) = inr None \/ reach st (slot st i) = inl None ->
            ~ is_kind st i [KValue; KStrong; KWeak]).
  { intros i E (k & A & B).
    destruct (slot st i) as [[[d|]|[d|]]|[d|]|[d|]|[[d|]|]|]; simpl in *; try (destruct E; discriminate).
    all: try discriminate A.
    all: try (destruct (alive st d); destruct E; discriminate).
    all: injection A as <-; intuition discriminate. }
  assert (VN : forall r y, slot st r = RV y -> (view st r = SeenNull <-> vget y = None)).
  { intros r y E. unfold view. rewrite E, vget_target. destruct (vget y) as [c|]; [|tauto].
    destruct (instance st c); split; discriminate. }
  assert (K1 : forall i r k ks, slot st i = r -> kind_of r = Some k -> In k ks -> is_kind st i ks).
  { intros i r k ks <- A B. exists k. auto. }
  assert (K0 : forall i r ks, slot st i = r -> (forall k, kind_of r = Some k -> In k ks -> False) -> ~ is_kind st i ks).
  { intros i r ks <- A (k & B & C). eauto. }
  destruct o; unfold HandleModel.step, new, set, ret in H;
    repeat match type of H with context [match ?x with _ => _ end] => destruct x eqn:?; try discriminate end;
    injection H as <- <-; cbn [typed throws].
  all: try match goal with E : reach _ (slot _ ?i) = inl (Some _), RX : (forall i c, reach _ _ = inl (Some c) -> _) |- _ =>
             destruct (RX i _ E) as (? & ? & ?) end.
  all: try match goal with E : reach _ (slot _ ?i) = inr (Some _), RN : (forall i e, reach _ _ = inr (Some e) -> _) |- _ =>
             destruct (RN i _ E) as (? & ?) end.
  all: split; [split; [intros X; try discriminate X | intros X; try reflexivity; exfalso; apply X] | intros TY ee; split; [intros X; try discriminate X | intros X]].
  all: try tauto.
  all: try (repeat split; match goal with K1 : (forall i r k ks, _), E : slot ?s ?i = ?r |- is_kind ?s ?i ?ks =>
          exact (K1 i r _ ks E eq_refl ltac:(simpl; tauto)) end).
  all: try match goal with
    | |- ~ _ => hnf; intros
    end.
  all: repeat match goal with H : _ /\ _ |- _ => destruct H end.
  all: try match goal with
    | K : is_kind ?s ?i _, E : slot ?s ?i = _ |- _ =>
        exfalso; destruct K as (? & KA & KB); rewrite E in KA; simpl in KA, KB;
        solve [discriminate KA | injection KA as <-; intuition discriminate]
    | RB : (forall i, _ \/ _ -> ~ is_kind ?s i _), K : is_kind ?s ?i _ |- _ =>
        exfalso; apply (RB i); auto; fail
    | AS : (forall r y e, slot ?s r = _ -> asShared ?s y = Some (inr e) -> _), E : slot ?s ?i = RV ?y, F : asShared ?s ?y = Some (inr ?e) |- _ =>
        destruct (AS i y e E F); try (split; congruence); split; [congruence | assumption]
    | AN : (forall r y p, _ -> _ -> ~ unshareable ?s r), U : unshareable ?s ?i, E : slot ?s ?i = RV ?y |- _ =>
        exfalso; eapply (AN i y); eauto; fail
    end.
  all: try (unfold local_object; eauto; fail).
  all: try congruence.
  all: try (match goal with |- _ /\ _ /\ (exists _, _) => refine (conj _ (conj eq_refl _)); [congruence | eauto] end).
  all: try (match goal with K : local_object _ _ |- _ => destruct K; congruence end).
  all: try (match goal with K : exists p, slot _ _ = RG (Some p) |- _ => destruct K; congruence end).
  all: try (match goal with
    | AS : (forall r y e, slot ?s r = _ -> asShared ?s y = Some (inr e) -> _), E : slot ?s ?i = RV ?y, F : asShared ?s ?y = Some (inr ?e) |- _ =>
        destruct (AS i y e E F) as [? ?] end; first [congruence | split; [congruence | assumption]]).
  all: try (repeat match goal with D : _ \/ _ |- _ => destruct D as [[? ?]|[? ?]] end; congruence).
  all: try (match goal with VN : (forall r y, slot ?s r = _ -> _) |- _ =>
          repeat match goal with E : slot s ?i = RV ?y |- _ => pose proof (VN i y E); clear E end end;
        repeat match goal with D : _ <-> _ |- _ => destruct D end).
  - destruct H0 as [Z|Z]; [apply H4 in Z | apply H3 in Z]; congruence.
  - split; [congruence|]. auto.
  - split; [congruence|]. auto.
Qed.

(** operator== compares the values. *)
Theorem C82_equality : forall st r q v u, reachable st ->
  is_kind st r [KValue] -> is_kind st q [KValue] -> view st r = SeenVal v -> view st q = SeenVal u ->
  step st (VEq r q) = Some (st, OBool (veqb v u)).
Proof.
  intros st r q v u R KR KQ A B. apply reachable_WF in R.
  destruct (view_val st r v R A) as (c & T & _ & _ & RD).
  destruct (view_val st q u R B) as (d & T2 & _ & _ & RD2).
  destruct KR as (k & E & [<-|[]]). destruct KQ as (k & F & [<-|[]]).
  unfold HandleModel.step, ret.
  destruct (slot st r) as [x| | | |]; try discriminate E. destruct (slot st q) as [y| | | |]; try discriminate F.
  rewrite vget_target in *. rewrite T, T2, RD, RD2. reflexivity.
Qed.

(** Kinds: each operation that creates a variable creates one of the right
    kind; variables keep their kind until they are destroyed. *)
Theorem C82_kinds : forall st o st', reachable st -> step st o = Some (st', ODone) ->
  length (slots st') = length (slots st) + (if new_kind o then 1 else 0) /\
  (forall k, new_kind o = Some k -> kind_of (slot st' (length (slots st))) = Some k) /\
  (forall j, j < length (slots st) -> o <> Destroy j -> kind_of (slot st' j) = kind_of (slot st j)).
Proof.
  intros st o st' R H. apply reachable_WF in R.
  assert (PK : forall (s1 : state V) i r, kind_of r = kind_of (slot s1 i) ->
     forall j, kind_of (slot (put s1 i r) j) = kind_of (slot s1 j)).
  { intros s1 i r E j. destruct (Nat.lt_ge_cases i (length (slots s1))) as [L|L].
    - rewrite put_any by auto. destruct (Nat.eqb_spec j i) as [->|]; auto.
    - unfold slot at 1, put. simpl. rewrite upd_out by auto. reflexivity. }
  assert (PN : forall (s1 : state V) r, kind_of (slot (push s1 r) (length (slots s1))) = kind_of r)
    by (intros; rewrite push_new; reflexivity).
  destruct o; unfold HandleModel.step, new, set, ret in H;
    repeat match type of H with context [match ?x with _ => _ end] => destruct x eqn:?; try discriminate end;
    injection H as <-; cbn [new_kind].
  all: try match goal with E : write _ _ _ = Some ?s1 |- _ =>
         pose proof (write_slots _ _ _ _ E); pose proof (fun i => write_slot _ _ _ _ i E) end.
  all: refine (conj _ (conj _ _)).
  all: rewrite ?put_len, ?push_len, ?Nat.add_0_r; try reflexivity; try (simpl; lia).
  all: try (intros k0 X; first [discriminate X | injection X as <-]).
  all: try (intros j0 J0 ND).
  all: try (rewrite push_slot by assumption; reflexivity).
  all: try (rewrite PN; reflexivity).
  all: try congruence.
  all: try (rewrite put_other by (intros ->; congruence); congruence).
  all: try (rewrite put_other by (match goal with E : slot ?s ?i = _ |- _ < _ -> _ => idtac | _ => idtac end;
                                  match goal with E : slot ?s ?i = _ |- length (slots ?s) <> ?i => pose proof (proj1 (slot_in s i ltac:(congruence))); lia end);
             rewrite PN; reflexivity).
  all: try (rewrite !PK by (rewrite ?push_slot by lt_slot; rewrite ?put_other by congruence;
              match goal with E : slot _ ?i = _ |- _ = kind_of (slot _ ?i) => rewrite E; reflexivity end);
            rewrite ?push_slot by assumption; reflexivity).
  all: try (match goal with |- kind_of (slot (push ?s1 ?r) _) = _ => exact (PN s1 r) end).
  all: try (match goal with E : slot ?st ?i = _, PK : (forall s1 i r, _ -> forall j, _) |- kind_of (slot (put (alloc ?st ?v) ?i ?r) ?j) = _ =>
         refine (PK (alloc st v) i r _ j); rewrite alloc_slot, E; reflexivity end).
  - rewrite PK; [rewrite H0; reflexivity | rewrite H0, Heqr1; reflexivity].
  - rewrite !PK; [reflexivity | rewrite Heqr; reflexivity | rewrite PK, Heqr0; [reflexivity | rewrite Heqr; reflexivity]].
  - rewrite !PK; [reflexivity | rewrite Heqr; reflexivity | rewrite PK, Heqr0; [reflexivity | rewrite Heqr; reflexivity]].
Qed.

(** Moving a variable into itself and copying it to itself change nothing. *)
Theorem C82_self_assign : forall st i st' x o, reachable st ->
  In o [SMoveS i i; WMoveW i i; VSetV i i; VMoveV i i] ->
  step st o = Some (st', x) -> st' = st.
Proof.
  intros st i st' x o R I H. unfold HandleModel.step, set, ret in H.
  destruct I as [<-|[<-|[<-|[<-|[]]]]]; destruct (slot st i); rewrite ?Nat.eqb_refl in H; congruence.
Qed.

(** ** Storing through a reference *)
Theorem C82_aliases : forall st i v w, reachable st -> view st i = SeenVal w ->
  exists st', step st (Store i v) = Some (st', ODone) /\
    forall j, view st' j =
      match view st j with
      | SeenVal u => if match target (slot st i), target (slot st j) with
                        | Some c, Some d => c =? d | _, _ => false end
                     then SeenVal v else SeenVal u
      | other => other
      end.
Proof.
  intros st i v w R K. apply reachable_WF in R.
  destruct (view_val st i w R K) as (c & T & RC & J & RD).
  destruct (read_write st c w v RD) as [st' WR].
  exists st'. split.
  - unfold HandleModel.step, ret. rewrite RC, WR. reflexivity.
  - intros j. rewrite T.
    assert (J' : forall d, instance st' d = match instance st d with
                                           | Some u => if c =? d then Some v else Some u
                                           | None => None end).
    { intros d. pose proof (write_inv _ _ _ _ WR) as (u & l & E & AL & ->).
      unfold instance. unfold managed. simpl.
      destruct (Nat.eqb_spec c d) as [<-|NE].
      - rewrite upd_eq by (apply nth_error_Some; congruence). rewrite E.
        destruct l as [n|b]; [destruct (existsb _ _) | destruct b]; reflexivity.
      - rewrite upd_neq by auto. destruct (nth_error (cells st) d) as [[u' [n'|b']]|]; auto;
          [destruct (existsb _ _) | destruct b']; auto. }
    unfold view. rewrite (write_slot _ _ _ _ j WR).
    destruct (slot st j) as [[[d|]|[d|]]|[d|]|[d|]|[[d|]|]|]; simpl; auto;
      rewrite J'; destruct (instance st d); auto; destruct (c =? d); auto.
Qed.

(** ** Copies of value references are independent *)
Theorem C82_copy_independent : forall st r v st1, reachable st -> view st r = SeenVal v ->
  step st (VCopy r) = Some (st1, ODone) ->
  let n := length (slots st) in
  view st1 n = SeenVal v /\
  (forall j, j <> n -> target (slot st1 j) <> target (slot st1 n)) /\
  forall ops st2 xs, (forall o, In o ops -> ~ In n (names o)) ->
    run st1 ops = Some (st2, xs) -> view st2 n = SeenVal v.
Proof.
  intros st r v st1 R K H n. apply reachable_WF in R.
  assert (C : creates dflt st (VCopy r) = Some (n, v)) by (simpl; rewrite K; reflexivity).
  destruct (creates_ok dflt veqb st _ st1 n v R H C) as (E & J & P). simpl in E.
  assert (W1 : WF st1) by (eapply step_WF; eauto).
  assert (PR : private st1 n (fresh st)) by (split; auto).
  split; [|split].
  - unfold view. rewrite E. simpl. rewrite J. reflexivity.
  - intros j NE. rewrite E. simpl. auto.
  - intros ops st2 xs N RR.
    destruct (private_run dflt veqb ops st1 st2 xs n (fresh st) W1 PR N RR) as (W2 & P2 & C2).
    apply (private_view st2 n (fresh st)); auto. rewrite C2. apply instance_content; auto.
Qed.

(** ... and so is the original from its copy. *)
Theorem C82_original_independent : forall st r v st1 u st2 x, reachable st -> view st r = SeenVal v ->
  step st (VCopy r) = Some (st1, ODone) ->
  let n := length (slots st) in
  step st1 (Store n u) = Some (st2, x) \/ step st1 (VSetT n u) = Some (st2, x) ->
  view st2 n = SeenVal u /\ view st2 r = SeenVal v.
Proof.
  intros st r v st1 u st2 x R K H n S.
  assert (R1 : reachable st1) by (eapply reachable_step; eauto).
  destruct (C82_copy_independent st r v st1 R K H) as (A & B & _). fold n in A, B.
  assert (LR : r < length (slots st)).
  { pose proof (reachable_WF _ R) as W. destruct (view_val st r v W K) as (c & T & _).
    apply slot_in. intros X. rewrite X in T. discriminate. }
  assert (SR : slot st1 r = slot st r).
  { eapply C82_bindings; eauto. }
  assert (VR : view st1 r = SeenVal v).
  { pose proof (reachable_WF _ R) as W. pose proof (reachable_WF _ R1) as W1.
    destruct (view_val st r v W K) as (c & T & RC & J & RD).
    unfold HandleModel.step, new, ret in H.
    destruct (slot st r) as [y| | | |] eqn:E; try discriminate H.
    rewrite vget_target in T. rewrite T, RD in H. injection H as <-.
    assert (NG : forall g, slot (push (alloc st v) (RV (VShared (Some (fresh st))))) r <> RG g)
      by (intros g; rewrite SR; discriminate).
    apply (view_target _ r c v); [rewrite SR, vget_target; exact T | | exact NG].
    apply instance_push.
    pose proof (target_lt st r c W) as LC. rewrite E, vget_target in LC. specialize (LC T).
    unfold instance in *. simpl. rewrite nth_error_app1 by exact LC. exact J. }
  destruct (C82_aliases st1 n u v R1 A) as (s2 & ST & VW).
  assert (EQ : s2 = st2).
  { destruct S as [S|S].
    - congruence.
    - unfold HandleModel.step, set, ret in ST, S.
      pose proof (creates_ok dflt veqb st (VCopy r) st1 n v (reachable_WF _ R) H) as CO.
      simpl in CO. rewrite K in CO. destruct (CO eq_refl) as (E & _ & _). simpl in E.
      rewrite E in ST, S. simpl in ST, S. destruct (write st1 (fresh st) u); congruence. }
  subst s2. rewrite !VW, A, VR.
  assert (RN : r <> n) by (unfold n; lia).
  specialize (B r RN). split.
  - destruct (view_val st1 n v (reachable_WF _ R1) A) as (c & T & _). rewrite T, Nat.eqb_refl. reflexivity.
  - destruct (target (slot st1 n)) as [c|], (target (slot st1 r)) as [d|]; auto.
    destruct (Nat.eqb_spec c d); [congruence|auto].
Qed.

(** ** Binding references to each other *)

(** Binding a reference to the value of another one shares the instance:
    nothing is copied, both see the same value, and a strong or value
    reference now keeps it alive. *)
Theorem C82_share : forall st o st' d s v, reachable st -> step st o = Some (st', ODone) ->
  shares st o = Some (d, s) -> view st s = SeenVal v ->
  target (slot st' d) = target (slot st s) /\
  length (cells st') = length (cells st) /\
  (view st' d = SeenVal v \/ exists g, slot st' d = RG g) /\
  (forall c, target (slot st s) = Some c ->
     manages (slot st' d) c = true \/ slot st' d = RW (Some c) \/
     slot st d = RV (VRaw (Some c)) /\ st' = st).
Proof.
  intros st o st' d s v R H SH K. apply reachable_WF in R.
  destruct (view_val st s v R K) as (c & TS & _ & J & _).
  destruct (shares_ok dflt veqb st o st' d s v c R H SH TS J) as (A & B & C).
  refine (conj _ (conj _ (conj _ _))).
  - congruence.
  - eapply shares_len; eauto.
  - destruct (slot st' d) eqn:E; [left|left|left|right|simpl in A; discriminate]; [| | |eauto];
      (eapply view_target; [rewrite E; exact A | exact B | intros g; rewrite E; discriminate]).
  - intros c' T'. assert (c' = c) by congruence. subst. exact C.
Qed.

(** Every binding operation other than the assignment of a shared pointer to a
    value reference that wraps [this] succeeds or throws as documented; a null
    source gives a null destination and an expired one a null value reference
    (derefAsValue()) or an expired weak one. *)
Theorem C82_share_null : forall st o st' d s, reachable st -> step st o = Some (st', ODone) ->
  shares st o = Some (d, s) ->
  (view st s = SeenNull -> target (slot st' d) = None) /\
  (view st s = SeenExpired -> if match o with VOfWeak _ => true | _ => false end
                              then slot st' d = RV (VShared None) else slot st' d = slot st s).
Proof.
  intros st o st' d s R H SH. apply reachable_WF in R.
  split; intros K.
  - assert (T : target (slot st s) = None).
    { unfold view in K. destruct (slot st s) as [[[c|]|[c|]]|[c|]|[c|]|[[c|]|]|]; simpl in *; auto;
        try discriminate; destruct (instance st c); discriminate. }
    destruct o; try discriminate SH; simpl in SH; injection SH as <- <-;
      unfold HandleModel.step, new, set, ret in H; 
      repeat match type of H with context [match ?x with _ => _ end] => destruct x eqn:?; try discriminate end;
      injection H as <-.
    all: try match goal with F : asShared _ _ = Some (inl _) |- _ => apply asShared_target in F end.
    all: try match goal with E : slot ?s0 ?i = _, T : target (slot ?s0 ?i) = None |- _ => rewrite E in T; simpl in T end.
    all: rewrite ?push_new; subst; simpl; auto.
    all: try (rewrite put_any, Nat.eqb_refl by lt_slot; simpl; auto).
    all: try (match goal with E : slot ?s0 ?i = _, K : view ?s0 ?i = SeenNull |- _ => unfold view in K; rewrite E in K; discriminate end).
    + simpl in T. subst. reflexivity.
    + rewrite Heqr0. destruct x as [[c|]|[c|]]; simpl in *; auto; try discriminate; destruct p; discriminate.
  - unfold view in K.
    destruct (slot st s) as [[[c|]|[c|]]|[c|]|[c|]|[[c|]|]|] eqn:E; simpl in *; try discriminate;
      destruct (instance st c) eqn:J; try discriminate.
    destruct o; try discriminate SH; simpl in SH; injection SH as <- <-;
      unfold HandleModel.step, new, set, ret in H; rewrite E in H; try discriminate H.
    + injection H as <-. rewrite push_new. unfold lock.
      rewrite alive_instance, J by auto. reflexivity.
    + injection H as <-. apply push_new.
    + destruct (slot st r); discriminate.
    + destruct (slot st s0); discriminate.
    + destruct (slot st s0); discriminate.
    + destruct (slot st w); discriminate.
    + destruct (slot st w); discriminate.
    + destruct (slot st w) eqn:F; try discriminate. injection H as <-.
      rewrite put_any, Nat.eqb_refl; auto. lt_slot.
Qed.

(** Moving a strong or weak reference: the destination takes over, the source
    is null. *)
Theorem C82_move : forall st o st' d s, reachable st -> step st o = Some (st', ODone) ->
  moves st o = Some (d, s) ->
  slot st' d = slot st s /\ view st' d = view st s /\ view st' s = SeenNull.
Proof.
  intros st o st' d s R H M. apply reachable_WF in R.
  destruct (moves_ok dflt veqb st o st' d s R H M) as (A & B & C & _). auto.
Qed.

(** The move constructor of value references: the new variable takes over the
    instance; the old one is null. *)
Theorem C82_value_move : forall st r p st', reachable st -> slot st r = RV (VShared p) ->
  step st (VMove r) = Some (st', ODone) ->
  slot st' (length (slots st)) = slot st r /\
  view st' (length (slots st)) = view st r /\ view st' r = SeenNull /\
  length (cells st') = length (cells st).
Proof.
  intros st r p st' R E H. apply reachable_WF in R.
  unfold HandleModel.step, set, ret in H. rewrite E in H. injection H as <-.
  assert (L : r < length (slots st)) by (apply slot_in; congruence).
  assert (D : slot (put (push st (RV (VShared p))) r (RV (VShared None))) (length (slots st)) = RV (VShared p)).
  { rewrite put_other by lia. apply push_new. }
  split; [congruence|]. split; [|split].
  - unfold view. rewrite D, E. destruct p as [c|]; simpl; auto.
    destruct (strong_instance st r c R) as [v J]; [rewrite E; reflexivity|]. rewrite J.
    assert (J1 : instance (push st (RV (VShared (Some c)))) c = Some v) by (apply instance_push; auto).
    rewrite <- J1 in J. rewrite J1 in J.
    assert (J2 : instance (put (push st (RV (VShared (Some c)))) r (RV (VShared None))) c = Some v).
    { rewrite <- J1. apply instance_eq; [apply put_sim|]. intros _.
      transitivity true; [|symmetry]; apply managed_iff; exists (length (slots st)).
      - rewrite D. simpl. apply Nat.eqb_refl.
      - rewrite push_new. simpl. apply Nat.eqb_refl. }
    rewrite J2. reflexivity.
  - unfold view. rewrite put_any, Nat.eqb_refl by (rewrite push_len; lia). reflexivity.
  - rewrite put_clen, push_clen. reflexivity.
Qed.

(** Operations that create an instance give the variable one that no other
    variable refers to, with the right value; the variable manages it. *)
Theorem C82_new_instance : forall st o st' d v, reachable st -> step st o = Some (st', ODone) ->
  creates dflt st o = Some (d, v) ->
  view st' d = SeenVal v /\
  (forall j, j <> d -> target (slot st' j) <> target (slot st' d)) /\
  (exists c, length (cells st) <= c /\ target (slot st' d) = Some c /\ manages (slot st' d) c = true).
Proof.
  intros st o st' d v R H C. apply reachable_WF in R.
  destruct (creates_ok dflt veqb st o st' d v R H C) as (A & B & D).
  assert (T : target (slot st' d) = Some (fresh st)) by (rewrite A; destruct o; reflexivity).
  refine (conj _ (conj _ _)).
  - apply (view_target st' d (fresh st)); auto. intros g. rewrite A. destruct o; discriminate.
  - intros j NE. rewrite T. auto.
  - exists (fresh st). split; [unfold fresh; lia|]. split; auto. rewrite A.
    destruct o; simpl; apply Nat.eqb_refl.
Qed.

(** ** Assigning value references *)

(** Assigning a value to a value reference changes the instance, so every
    reference to that instance sees it, and nobody else. *)
Theorem C82_assign_seen_by_all : forall st o st' d v w, reachable st ->
  (exists s, o = VSetV d s /\ view st s = SeenVal v) \/ o = VSetT d v ->
  view st d = SeenVal w -> step st o = Some (st', ODone) ->
  forall j, view st' j =
    match view st j with
    | SeenVal u => if match target (slot st d), target (slot st j) with
                      | Some c, Some e => c =? e | _, _ => false end
                   then SeenVal v else SeenVal u
    | other => other
    end.
Proof.
  intros st o st' d v w R O K H.
  destruct (C82_aliases st d v w R K) as (s1 & ST & VW).
  pose proof (reachable_WF _ R) as W.
  destruct (view_val st d w W K) as (c & T & RC & J & RD).
  assert (SELF : st' = s1 \/ (st' = st /\ v = w)).
  { unfold HandleModel.step, set, ret in ST, H. rewrite RC in ST.
    destruct O as [(s & -> & KS)| ->].
    - destruct (slot st d) as [x| | | |] eqn:E; try discriminate H.
      destruct (slot st s) as [y| | | |] eqn:F; try discriminate H.
      rewrite vget_target in T.
      destruct (view_val st s v W KS) as (c2 & T2 & _ & _ & RD2). rewrite F, vget_target in T2.
      destruct (Nat.eqb_spec d s) as [->|NE].
      + right. split; congruence.
      + rewrite T2, RD2, T in H. left. destruct (write st c v); congruence.
    - destruct (slot st d) as [x| | | |] eqn:E; try discriminate H.
      rewrite vget_target in T. rewrite T in H. left. destruct (write st c v); congruence. }
  destruct SELF as [-> | [-> ->]]; [exact VW|].
  intros j. destruct (view st j) as [u| | | |] eqn:Q; auto. rewrite T.
  destruct (target (slot st j)) as [e|] eqn:TJ; auto.
  destruct (Nat.eqb_spec c e) as [<-|]; auto.
  destruct (view_val st j u W Q) as (e & T3 & _ & J3 & _). congruence.
Qed.

(** Assigning a null value reference makes the target null; other references
    to its former instance keep referring to it. *)
Theorem C82_assign_null : forall st d s o st', reachable st -> d <> s ->
  o = VSetV d s \/ o = VMoveV d s -> view st s = SeenNull -> step st o = Some (st', ODone) ->
  view st' d = SeenNull /\ (forall j, j <> d -> slot st' j = slot st j) /\
  (forall c, content st' c = content st c).
Proof.
  intros st d s o st' R NE O K H.
  assert (G : exists x, slot st d = RV x /\ st' = put st d (RV (VRaw None))).
  { unfold HandleModel.step, set, ret in H.
    destruct O as [-> | ->];
      (destruct (slot st d) as [x| | | |] eqn:E; try discriminate H;
       destruct (slot st s) as [y| | | |] eqn:F; try discriminate H;
       destruct (Nat.eqb_spec d s); [congruence|];
       assert (NT : vget y = None) by
         (unfold view in K; rewrite F in K; rewrite vget_target in K; destruct (vget y) as [n0|]; auto;
          destruct (instance st n0); discriminate);
       rewrite NT in H; injection H as <-; eauto). }
  destruct G as (x & E & ->).
  assert (L : d < length (slots st)) by (apply slot_in; congruence).
  split; [|split].
  - unfold view. rewrite put_any, Nat.eqb_refl by auto. reflexivity.
  - intros j NJ. apply put_other; auto.
  - intros c. apply content_put.
Qed.

(** Move-assigning a value reference to a non-null one: the target's instance
    gets the value, the source becomes null. *)
Theorem C82_move_assign : forall st d s v w st', reachable st -> d <> s ->
  view st s = SeenVal v -> view st d = SeenVal w -> step st (VMoveV d s) = Some (st', ODone) ->
  slot st' d = slot st d /\ view st' s = SeenNull /\
  (forall c, slot st d = RV (VShared (Some c)) -> view st' d = SeenVal v).
Proof.
  intros st d s v w st' R NE KS K H. pose proof (reachable_WF _ R) as W.
  assert (W' : WF st') by (eapply step_WF; eauto).
  assert (SD : forall c, target (slot st d) = Some c -> content st' c = Some v).
  { intros c T. apply (step_content_stored dflt veqb st (VMoveV d s) st' c d v w); auto.
    unfold stores. rewrite KS. reflexivity. }
  destruct (view_val st s v W KS) as (c2 & T2 & _ & _ & RD2).
  destruct (view_val st d w W K) as (c & T & RC & J & RD).
  unfold HandleModel.step, set, ret in H.
  destruct (slot st d) as [x| | | |] eqn:E; try discriminate H.
  destruct (slot st s) as [y| | | |] eqn:F; try discriminate H.
  destruct (Nat.eqb_spec d s); [congruence|]. rewrite vget_target in *.
  rewrite T2, RD2, T in H. destruct (write st c v) as [s1|] eqn:WR; [|discriminate]. injection H as <-.
  pose proof (write_slots _ _ _ _ WR) as WS.
  assert (LS : s < length (slots s1)) by (rewrite WS; apply slot_in; congruence).
  assert (D : slot (put s1 s (RV (VRaw None))) d = RV x).
  { rewrite put_other by auto. rewrite (write_slot _ _ _ _ d WR). exact E. }
  split; [exact D|]. split.
  - unfold view. rewrite put_any, Nat.eqb_refl by auto. reflexivity.
  - intros c' X. injection X as ->. simpl in T. injection T as ->.
    unfold view. rewrite D. simpl.
    destruct (strong_instance _ d c W') as [u JJ]; [rewrite D; reflexivity|].
    rewrite JJ. apply instance_content in JJ. rewrite (SD c eq_refl) in JJ. congruence.
Qed.

(** reset() and the end of a variable's life. *)
Theorem C82_reset : forall st o st' i, reachable st ->
  o = VReset i \/ o = SReset i \/ o = WReset i \/ o = GReset i \/ o = Destroy i ->
  step st o = Some (st', ODone) ->
  target (slot st' i) = None /\ (forall j, j <> i -> slot st' j = slot st j) /\
  (forall c, content st' c = content st c) /\
  (o = Destroy i -> slot st' i = RDead) /\ (o = GReset i -> slot st' i = RG None) /\
  (o = VReset i \/ o = SReset i \/ o = WReset i -> view st' i = SeenNull).
Proof.
  intros st o st' i R O H.
  assert (G : exists r, i < length (slots st) /\ st' = put st i r /\ target r = None /\
     (o = Destroy i -> r = RDead) /\ (o = GReset i -> r = RG None) /\
     (o = VReset i \/ o = SReset i \/ o = WReset i -> r = RV (VShared None) \/ r = RS None \/ r = RW None)).
  { unfold HandleModel.step, set, ret in H.
    assert (L : slot st i <> RDead).
    { intros X. destruct O as [-> | [-> | [-> | [-> | ->]]]]; rewrite X in H; discriminate. }
    apply slot_in in L. destruct L as [L _].
    destruct O as [-> | [-> | [-> | [-> | ->]]]]; destruct (slot st i); try discriminate H; injection H as <-;
      eexists; refine (conj L (conj eq_refl (conj eq_refl (conj _ (conj _ _))))); try discriminate; try reflexivity;
      try tauto; intros [X|[X|X]]; discriminate. }
  destruct G as (r & L & -> & T & D & GD & NN).
  assert (E : slot (put st i r) i = r) by (rewrite put_any, Nat.eqb_refl by auto; reflexivity).
  rewrite E. refine (conj T (conj _ (conj _ (conj _ (conj _ _))))).
  - intros j NE. apply put_other; auto.
  - intros c. apply content_put.
  - exact D.
  - exact GD.
  - intros X. unfold view. rewrite E. destruct (NN X) as [-> | [-> | ->]]; reflexivity.
Qed.

(** asSharedPtr(), exactly. *)
Theorem C82_as_shared : forall st i, reachable st ->
  step st (AsShared i) =
  match slot st i with
  | RV (VShared p) => Some (st, OPtr p)
  | RV (VRaw None) => Some (st, OExn IllegalReference)
  | RV (VRaw (Some c)) =>
      match instance st c with
      | None => None
      | Some _ => match nth_error (cells st) c with
                  | Some (mkCell _ (Counted _)) => Some (st, OPtr (Some c))
                  | _ => Some (st, OExn IllegalReference)
                  end
      end
  | _ => Some (st, OIll)
  end.
Proof.
  intros st i R. apply reachable_WF in R. unfold HandleModel.step, ret.
  destruct (slot st i) as [[p|[c|]]|p|p|g|]; simpl; auto.
  pose proof (alive_instance st c R) as A. unfold alive in A.
  unfold instance in *. destruct (nth_error (cells st) c) as [[v [n|b]]|] eqn:E; simpl in *; auto.
  - rewrite A. destruct (managed st c); auto.
  - rewrite A. destruct b; auto.
Qed.

(** Generic strong references hand out the instance they were bound to, and
    only for its own type. *)
Theorem C82_generic : forall st g same, reachable st ->
  (forall p, slot st g = RG (Some p) ->
     step st (GAs g same) = Some (st, if same then OPtr p else OExn IllegalReference) /\
     step st (VOfGeneric g same) = if same then Some (push st (RV (VShared p)), ODone)
                                   else Some (st, OExn IllegalReference)) /\
  (slot st g = RG None -> step st (GAs g same) = Some (st, OPtr None)) /\
  (forall c, slot st g = RG (Some (Some c)) -> exists v, instance st c = Some v).
Proof.
  intros st g same R. apply reachable_WF in R. refine (conj _ (conj _ _)).
  - intros p E. unfold HandleModel.step, new, ret. rewrite E. destruct same; auto.
  - intros E. unfold HandleModel.step, ret. rewrite E. reflexivity.
  - intros c E. apply (strong_instance st g c R). rewrite E. reflexivity.
Qed.

End C82.

(** ** Non-trivial cases, and what does not hold *)
Notation runN := (run 0 Nat.eqb init).
Notation stepN := (step 0 Nat.eqb).

(** The copy's history: the original and an alias of it are overwritten and
    destroyed; the copy keeps its value. *)
Example C82_copy_example :
  runN [VNew 7; SOfV 0; VCopy 0; Store 1 8; Load 0; Load 2; Destroy 0; Destroy 1; Load 2]
  = Some (mkSt [mkCell 8 (Counted 0); mkCell 7 (Counted 1)] [RDead; RDead; RV (VShared (Some 1))],
          [ODone; ODone; ODone; ODone; OVal 8; OVal 7; ODone; ODone; OVal 7]).
Proof. reflexivity. Qed.

(** A weak reference outlives the value reference as long as a strong one is
    left; then it is expired; reset makes it null. *)
Example C82_weak_example : exists st,
  runN [VNew 7; SOfV 0; WOfV 0; Destroy 0; Load 2; IsExpired 2; Destroy 1; Load 2; IsNull 2; IsExpired 2;
        WCopy 2; VOfWeak 2; IsNull 4; Load 4; WReset 2; Load 2; IsExpired 2]
  = Some (st, [ODone; ODone; ODone; ODone; OVal 7; OBool false; ODone; OExn ExpiredReference; OBool true;
               OBool true; ODone; ODone; OBool true; OExn NullReference; ODone; OExn NullReference; OBool false]).
Proof. eexists. reflexivity. Qed.

(** Assignments are seen by all references to the target's instance. *)
Example C82_assign_example : exists st,
  runN [VNew 1; VNew 2; SOfV 0; WOfS 2; VSetV 0 1; Load 2; Load 3; Load 1; VSetT 1 5; Load 0; VMoveV 0 1; Load 3; IsNull 1]
  = Some (st, [ODone; ODone; ODone; ODone; ODone; OVal 2; OVal 2; OVal 2; ODone; OVal 2; ODone; OVal 5; OBool true]).
Proof. eexists. reflexivity. Qed.

(** Local objects, and generic references. *)
Example C82_local_example : exists st,
  runN [LocalNew 3; VSelfLocal 0; Load 0; SOfV 0; SNew 4; GOfS 1; Destroy 1; GAs 2 true; GAs 2 false;
        VOfGeneric 2 true; Load 3; VSelf 3; SOfV 4; Load 5]
  = Some (st, [ODone; ODone; OVal 3; OExn IllegalReference; ODone; ODone; ODone; OPtr (Some 1); OExn IllegalReference;
               ODone; OVal 4; ODone; ODone; OVal 4]).
Proof. eexists. reflexivity. Qed.

(** The hypothesis of [C82_never_undefined] is needed: a wrapped [this]
    outlives the instance. *)
Example C82_this_example : runN [VNew 1; VSelf 0; Destroy 0; Load 1] = None.
Proof. reflexivity. Qed.

(** "Returns a shared pointer to the referred value. The result may be a null
    pointer if the instance does not refer to a valid value" (reference.h:126):
    not if it became null by an assignment; binding a strong or a weak
    reference to it throws, too. *)
Theorem C82_null_shared_refuted : exists ops st xs, runN ops = Some (st, xs) /\
  view st 1 = SeenNull /\ view st 0 = SeenNull /\
  stepN st (AsShared 0) = Some (st, OPtr None) /\
  stepN st (AsShared 1) = Some (st, OExn IllegalReference) /\
  stepN st (SOfV 1) = Some (st, OExn IllegalReference) /\
  stepN st (WOfV 1) = Some (st, OExn IllegalReference).
Proof.
  exists [VNew 1; VNew 2; VReset 0; VSetV 1 0]. eexists _, _.
  repeat (split; [reflexivity|]). reflexivity.
Qed.

(** "Resets the contained value to a fresh copy of a T value initialized to its
    default" (reference.h:162): it becomes null. *)
Theorem C82_reset_refuted : exists ops st st' xs, runN ops = Some (st, xs) /\ view st 0 = SeenVal 7 /\
  stepN st (VReset 0) = Some (st', ODone) /\ view st' 0 = SeenNull.
Proof. exists [VNew 7]. eexists _, _, _. repeat (split; [reflexivity|]). reflexivity. Qed.

(** "If the strong reference is null or expired, the returned reference will be
    null" (reference.h:743): an unbound generic reference returns a reference
    to a new default value. *)
Theorem C82_generic_null_refuted : exists ops st st' xs, runN ops = Some (st, xs) /\
  stepN st (GAs 0 true) = Some (st, OPtr None) /\
  stepN st (VOfGeneric 0 true) = Some (st', ODone) /\ view st' 1 = SeenVal 0.
Proof. exists [GNull]. eexists _, _, _. repeat (split; [reflexivity|]). reflexivity. Qed.

(** Move assignment clears its source only if the target is not null. *)
Theorem C82_move_assign_refuted : exists ops st st' xs, runN ops = Some (st, xs) /\
  view st 0 = SeenNull /\ view st 1 = SeenVal 5 /\
  stepN st (VMoveV 0 1) = Some (st', ODone) /\ view st' 0 = SeenVal 5 /\ view st' 1 = SeenVal 5 /\
  target (slot st' 0) <> target (slot st' 1).
Proof.
  exists [VDefault; VNew 5; VReset 0]. eexists _, _, _. repeat (split; [reflexivity|]). discriminate.
Qed.

(** A value reference assigned from a shared pointer does not join its managers
    if it wraps [this] of the same instance already: it dangles once the others
    are gone ([C82_share]'s last case). *)
Theorem C82_assign_shared_refuted : exists ops st xs, runN ops = Some (st, xs) /\
  target (slot st 1) = Some 0 /\ (exists st', stepN st (VSetS 1 0) = Some (st', ODone) /\
    manages (slot st' 1) 0 = false /\ 
    exists st'', stepN st' (Destroy 0) = Some (st'', ODone) /\ stepN st'' (Load 1) = None).
Proof.
  exists [SNew 1; VSelf 0]. eexists _, _. split; [reflexivity|]. split; [reflexivity|].
  eexists. split; [reflexivity|]. split; [reflexivity|]. eexists. split; reflexivity.
Qed.
