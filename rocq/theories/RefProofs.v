From Verif Require Import Base RefModel RefSpec.

Definition one (x : nat) (p : ptr) : nat := match p with Some o => if Nat.eqb o x then 1 else 0 | None => 0 end.
Definition cnt (x : nat) (l : list ptr) : nat := list_sum (map (one x) l).
Definition vv (v : option ptr) : ptr := match v with Some p => p | None => None end.
Definition ownc (s : state) (x : nat) : nat :=
  cnt x (map vv (vars s)) + cnt x (map Some (raws s)) + cnt x (all_ptrs (hp s)).
Definition refs_of (h : heap) (o : nat) : nat := match nth_error h o with Some (Some ob) => refs ob | _ => 0 end.
Definition pos_refs (h : heap) : Prop := forall o ob, nth_error h o = Some (Some ob) -> 1 <= refs ob.
Definition J (s : state) (e : nat -> nat) : Prop := (forall x, ownc s x + e x = refs_of (hp s) x) /\ pos_refs (hp s).

Lemma cnt_app x a b : cnt x (a ++ b) = cnt x a + cnt x b.
Proof. unfold cnt. rewrite map_app, list_sum_app. reflexivity. Qed.
Lemma cnt_cons x p l : cnt x (p :: l) = one x p + cnt x l. Proof. reflexivity. Qed.

Lemma upd_length {A} (l : list A) k a : length (upd l k a) = length l.
Proof. revert k; induction l as [|x l IH]; intros [|k]; cbn; auto. Qed.
Lemma nth_upd {A} (l : list A) k a j : nth_error (upd l k a) j = if (Nat.eqb k j && (k <? length l))%bool then Some a else nth_error l j.
Proof.
  revert k j; induction l as [|x l IH]; intros k j; cbn [upd].
  - rewrite andb_false_r. reflexivity.
  - destruct k as [|k], j as [|j]; cbn [nth_error]; try reflexivity. rewrite IH. cbn [length Nat.eqb].
    destruct (Nat.ltb_spec k (length l)), (Nat.ltb_spec (S k) (S (length l))); try lia; reflexivity.
Qed.
Lemma nth_upd_same {A} (l : list A) k a b : nth_error l k = Some b -> nth_error (upd l k a) k = Some a.
Proof.
  intros H. rewrite nth_upd, Nat.eqb_refl. assert (k < length l) by (apply nth_error_Some; congruence).
  apply Nat.ltb_lt in H0. rewrite H0. reflexivity.
Qed.
Lemma nth_upd_other {A} (l : list A) k a j : k <> j -> nth_error (upd l k a) j = nth_error l j.
Proof. intros H. rewrite nth_upd. apply Nat.eqb_neq in H. rewrite H. reflexivity. Qed.

Lemma sum_upd {A} (f : A -> nat) l k a b : nth_error l k = Some b ->
  list_sum (map f (upd l k a)) + f b = list_sum (map f l) + f a.
Proof.
  unfold list_sum. revert k; induction l as [|x l IH]; intros [|k] H; cbn [nth_error upd map fold_right] in *; try discriminate.
  - injection H as ->. lia.
  - specialize (IH k H). lia.
Qed.

Definition ofields (x : option hobj) : list ptr := match x with Some ob => fields ob | None => [] end.
Lemma all_ptrs_sum x h : cnt x (all_ptrs h) = list_sum (map (fun e => cnt x (ofields e)) h).
Proof. induction h as [|e h IH]; [reflexivity|]. cbn [all_ptrs flat_map map list_sum fold_right]. rewrite cnt_app. unfold all_ptrs in IH. rewrite IH. reflexivity. Qed.
Lemma all_ptrs_len h : length (all_ptrs h) = list_sum (map (fun e => length (ofields e)) h).
Proof. induction h as [|e h IH]; [reflexivity|]. cbn [all_ptrs flat_map map list_sum fold_right]. rewrite app_length. unfold all_ptrs in IH. rewrite IH. reflexivity. Qed.
Lemma all_ptrs_upd x h k e b : nth_error h k = Some b ->
  cnt x (all_ptrs (upd h k e)) + cnt x (ofields b) = cnt x (all_ptrs h) + cnt x (ofields e).
Proof. intros H. rewrite !all_ptrs_sum. apply (sum_upd (fun e => cnt x (ofields e))). exact H. Qed.
Lemma all_len_upd h k e b : nth_error h k = Some b ->
  length (all_ptrs (upd h k e)) + length (ofields b) = length (all_ptrs h) + length (ofields e).
Proof. intros H. rewrite !all_ptrs_len. apply (sum_upd (fun e => length (ofields e))). exact H. Qed.

Lemma cnt_targets x ps : cnt x (map Some (targets ps)) = cnt x ps.
Proof.
  induction ps as [|[o|] ps IH]; [reflexivity| |].
  - change (targets (Some o :: ps)) with (o :: targets ps). cbn [map]. rewrite !cnt_cons, IH. reflexivity.
  - change (targets (None :: ps)) with (targets ps). rewrite !cnt_cons, IH. reflexivity.
Qed.
Lemma targets_len ps : length (targets ps) <= length ps.
Proof.
  induction ps as [|[o|] ps IH]; [cbn; lia| |].
  - change (targets (Some o :: ps)) with (o :: targets ps). cbn [length]. lia.
  - change (targets (None :: ps)) with (targets ps). cbn [length]. lia.
Qed.

Lemma refs_upd h k e b : nth_error h k = Some b -> forall x,
  refs_of (upd h k e) x = if Nat.eqb k x then match e with Some ob => refs ob | None => 0 end else refs_of h x.
Proof.
  intros H x. unfold refs_of. destruct (Nat.eqb_spec k x) as [->|N].
  - rewrite (nth_upd_same _ _ _ _ H). reflexivity.
  - rewrite nth_upd_other by exact N. reflexivity.
Qed.

(** Every pending Unref finds its object; the books balance at the end. *)
Lemma unref_all_ok K fuel : forall h work,
  (forall x, K x + cnt x (all_ptrs h) + cnt x (map Some work) = refs_of h x) -> pos_refs h ->
  length work + length (all_ptrs h) <= fuel ->
  exists h', unref_all fuel h work = Ok h' /\ (forall x, K x + cnt x (all_ptrs h') = refs_of h' x) /\ pos_refs h' /\
    length h' = length h /\
    (forall o ob', nth_error h' o = Some (Some ob') -> exists ob, nth_error h o = Some (Some ob) /\ fields ob' = fields ob).
Proof.
  induction fuel as [|f IH]; intros h work HB HP HF.
  - destruct work; [|cbn in HF; lia]. exists h. cbn [unref_all]. repeat split; auto.
    + intros x. specialize (HB x). cbn [map] in HB. change (cnt x []) with 0 in HB. lia.
    + intros o ob E. eauto.
  - destruct work as [|o work'].
    { exists h. cbn [unref_all]. repeat split; auto.
      - intros x. specialize (HB x). cbn [map] in HB. change (cnt x []) with 0 in HB. lia.
      - intros o ob E. eauto. }
    cbn [unref_all]. pose proof (HB o) as Ho. cbn [map] in Ho. rewrite cnt_cons in Ho. cbn [one] in Ho. rewrite Nat.eqb_refl in Ho.
    unfold get_obj. unfold refs_of in Ho. destruct (nth_error h o) as [[ob|]|] eqn:E; [|lia|lia]. cbn [bind].
    destruct (refs ob) as [|[|n]] eqn:R; [lia| |].
    + edestruct (IH (upd h o None) (targets (fields ob) ++ work')) as (h' & E' & B' & P' & L' & F').
      * intros x. specialize (HB x). pose proof (all_ptrs_upd x h o None _ E) as AU. cbn [ofields] in AU. change (cnt x []) with 0 in AU.
        rewrite map_app, cnt_app, cnt_targets. cbn [map] in HB. rewrite cnt_cons in HB. cbn [one] in HB.
        rewrite (refs_upd h o None _ E x).
        destruct (Nat.eqb_spec o x) as [Ex|N]; [|lia]. unfold refs_of in HB. rewrite <- Ex, E in HB. rewrite <- Ex in *. lia.
      * intros y ob' Hy. rewrite nth_upd in Hy. destruct (Nat.eqb o y && (o <? length h)); [discriminate|]. eapply HP; eauto.
      * rewrite app_length. pose proof (all_len_upd h o None _ E) as AL. cbn [ofields length] in AL.
        pose proof (targets_len (fields ob)). cbn [length] in HF. lia.
      * exists h'. repeat split; auto; [rewrite L'; apply upd_length|].
        intros y ob' Hy. destruct (F' y ob' Hy) as (ob2 & E2 & Ef). rewrite nth_upd in E2.
        destruct (Nat.eqb o y && (o <? length h)); [discriminate|]. eauto.
    + edestruct (IH (upd h o (Some (mkObj (S n) (fields ob)))) work') as (h' & E' & B' & P' & L' & F').
      * intros x. specialize (HB x). pose proof (all_ptrs_upd x h o (Some (mkObj (S n) (fields ob))) _ E) as AU. cbn [ofields fields] in AU.
        cbn [map] in HB. rewrite cnt_cons in HB. cbn [one] in HB. rewrite (refs_upd h o _ _ E x). cbn [refs].
        destruct (Nat.eqb_spec o x) as [Ex|N]; [|lia]. unfold refs_of in HB. rewrite <- Ex, E in HB. rewrite <- Ex in *. lia.
      * intros y ob' Hy. rewrite nth_upd in Hy. destruct (Nat.eqb o y && (o <? length h)); [injection Hy as <-; cbn; lia|]. eapply HP; eauto.
      * pose proof (all_len_upd h o (Some (mkObj (S n) (fields ob))) _ E) as AL. cbn [ofields fields] in AL. cbn [length] in HF. lia.
      * exists h'. repeat split; auto; [rewrite L'; apply upd_length|].
        intros y ob' Hy. destruct (F' y ob' Hy) as (ob2 & E2 & Ef). rewrite nth_upd in E2.
        destruct (Nat.eqb_spec o y) as [<-|N]; cbn [andb] in E2; [|eauto].
        destruct (o <? length h); [|eauto]. injection E2 as <-. exists ob. split; [exact E|]. rewrite Ef. reflexivity.
Qed.

Lemma unref_ok s p : J s (fun x => one x p) ->
  exists h', unref (hp s) p = Ok h' /\ J (with_hp s h') (fun _ => 0) /\ length h' = length (hp s) /\
    (forall l v, read (with_hp s h') l = Ok v -> read s l = Ok v).
Proof.
  intros [HB HP]. assert (G : exists h', unref (hp s) p = Ok h' /\ (forall x, cnt x (map vv (vars s)) + cnt x (map Some (raws s)) + cnt x (all_ptrs h') = refs_of h' x) /\ pos_refs h' /\
    length h' = length (hp s) /\
    (forall o ob', nth_error h' o = Some (Some ob') -> exists ob, nth_error (hp s) o = Some (Some ob) /\ fields ob' = fields ob)).
  { destruct p as [o|]; cbn [unref].
    - apply (unref_all_ok (fun x => cnt x (map vv (vars s)) + cnt x (map Some (raws s)))); [|exact HP|cbn; lia].
      intros x. specialize (HB x). unfold ownc in HB. cbn [map]. rewrite cnt_cons. change (cnt x []) with 0. lia.
    - exists (hp s). repeat split; auto. { intros x. specialize (HB x). unfold ownc in HB. cbn [one] in HB. lia. } eauto. }
  destruct G as (h' & E & B & P & L & F). exists h'. repeat split; auto.
  - intros x. unfold ownc. cbn [with_hp vars raws hp]. rewrite Nat.add_0_r. apply B.
  - intros l v. destruct l as [w|o k]; cbn [read with_hp vars hp]; [auto|]. unfold get_obj.
    destruct (nth_error h' o) as [[ob'|]|] eqn:E'; cbn [bind]; try discriminate.
    destruct (F o ob' E') as (ob & Eo & Ef). rewrite Eo. cbn [bind]. rewrite Ef. auto.
Qed.

Lemma cnt_ge x l : In (Some x) l -> 1 <= cnt x l.
Proof.
  induction l as [|p l IH]; intros H; [destruct H|]. rewrite cnt_cons. destruct H as [-> |H]; [cbn [one]; rewrite Nat.eqb_refl; lia|specialize (IH H); lia].
Qed.
Lemma cnt_in x l : 1 <= cnt x l -> In (Some x) l.
Proof.
  induction l as [|p l IH]; [cbn; lia|]. rewrite cnt_cons. intros H. destruct p as [o|]; cbn [one] in H.
  - destruct (Nat.eqb_spec o x) as [->|]; [left; reflexivity|right; apply IH; lia].
  - right; apply IH; lia.
Qed.

Lemma owned_cnt s x : owned s x <-> 1 <= ownc s x.
Proof.
  unfold ownc. split.
  - intros [(v & H)|[(r & H)|(y & k & ob & E & H)]].
    + assert (1 <= cnt x (map vv (vars s))); [|lia]. apply cnt_ge, in_map_iff. exists (Some (Some x)). split; [reflexivity|].
      eapply nth_error_In; exact H.
    + assert (1 <= cnt x (map Some (raws s))); [|lia]. apply cnt_ge, in_map. eapply nth_error_In; exact H.
    + assert (1 <= cnt x (all_ptrs (hp s))); [|lia]. apply cnt_ge. unfold all_ptrs. apply in_flat_map.
      exists (Some ob). split; [eapply nth_error_In; exact E|eapply nth_error_In; exact H].
  - intros H. destruct (Nat.eq_dec (cnt x (map vv (vars s))) 0).
    + destruct (Nat.eq_dec (cnt x (map Some (raws s))) 0).
      * right. right. assert (HI : In (Some x) (all_ptrs (hp s))) by (apply cnt_in; lia).
        apply in_flat_map in HI. destruct HI as ([ob|] & H1 & H2); [|destruct H2].
        apply In_nth_error in H1. destruct H1 as [y H1]. apply In_nth_error in H2. destruct H2 as [k H2]. exists y, k, ob. auto.
      * right. left. assert (HI : In (Some x) (map Some (raws s))) by (apply cnt_in; lia).
        apply in_map_iff in HI. destruct HI as (o & [= ->] & HI). apply In_nth_error in HI. destruct HI as [r HI]. exists r. exact HI.
    + left. assert (HI : In (Some x) (map vv (vars s))) by (apply cnt_in; lia).
      apply in_map_iff in HI. destruct HI as ([p|] & Ep & HI); cbn [vv] in Ep; [|discriminate].
      subst p. apply In_nth_error in HI. destruct HI as [v HI]. exists v. exact HI.
Qed.

Lemma read_owned s l x : read s l = Ok (Some x) -> owned s x.
Proof.
  destruct l as [v|o k]; cbn [read].
  - destruct (nth_error (vars s) v) as [[p|]|] eqn:E; try discriminate. intros [= ->]. left. exists v. exact E.
  - unfold get_obj. destruct (nth_error (hp s) o) as [[ob|]|] eqn:E; cbn [bind]; try discriminate.
    destruct (nth_error (fields ob) k) as [p|] eqn:E2; try discriminate. intros [= ->]. right. right. exists o, k, ob. auto.
Qed.

Lemma alive_refs s x : pos_refs (hp s) -> (alive s x <-> 1 <= refs_of (hp s) x).
Proof.
  intros HP. unfold alive, refs_of. split.
  - intros [ob E]. rewrite E. eapply HP; exact E.
  - destruct (nth_error (hp s) x) as [[ob|]|]; [eauto|lia|lia].
Qed.

Lemma alive_owned s : J s (fun _ => 0) -> forall x, alive s x <-> owned s x.
Proof. intros [HB HP] x. rewrite (alive_refs s x HP), owned_cnt, <- (HB x). lia. Qed.

Lemma owned_alive s e x : J s e -> owned s x -> alive s x.
Proof. intros [HB HP] H. apply alive_refs; [exact HP|]. apply owned_cnt in H. rewrite <- (HB x). lia. Qed.

(** write *)
Lemma loc_eqb_ok a b : loc_eqb a b = true <-> a = b.
Proof.
  destruct a, b; cbn [loc_eqb]; try (split; [discriminate|congruence]).
  - rewrite Nat.eqb_eq. split; congruence.
  - rewrite andb_true_iff, !Nat.eqb_eq. split; [intros [-> ->]; reflexivity|intros [= -> ->]; auto].
Qed.

Lemma write_ok s l old p : read s l = Ok old ->
  exists s', write s l p = Ok s' /\ (forall x, ownc s' x + one x old = ownc s x + one x p) /\
    (forall x, refs_of (hp s') x = refs_of (hp s) x) /\ (pos_refs (hp s) -> pos_refs (hp s')) /\ raws s' = raws s /\
    length (vars s') = length (vars s) /\ length (hp s') = length (hp s) /\
    (forall l', value s' l' = if loc_eqb l l' then Some p else value s l').
Proof.
  destruct l as [v|o k]; cbn [read write].
  - destruct (nth_error (vars s) v) as [[q|]|] eqn:E; try discriminate. intros [= ->].
    eexists. split; [reflexivity|]. cbn [vars raws hp]. repeat split; auto.
    + intros x. unfold ownc. cbn [vars raws hp].
      pose proof (sum_upd (fun e => one x (vv e)) (vars s) v (Some p) _ E) as SU. cbn [vv] in SU. unfold cnt. rewrite !map_map.
      unfold cnt in *. lia.
    + apply upd_length.
    + intros [w|o' k']; cbn [loc_eqb]; unfold value; cbn [read vars hp]; [|reflexivity].
      rewrite nth_upd. destruct (Nat.eqb_spec v w) as [->|]; cbn [andb]; [|reflexivity].
      assert (w < length (vars s)) by (apply nth_error_Some; congruence). apply Nat.ltb_lt in H. rewrite H. reflexivity.
  - unfold get_obj. destruct (nth_error (hp s) o) as [[ob|]|] eqn:E; cbn [bind]; try discriminate.
    destruct (nth_error (fields ob) k) as [q|] eqn:E2; try discriminate. intros [= ->].
    eexists. split; [reflexivity|]. cbn [vars raws hp]. repeat split; auto.
    + intros x. unfold ownc. cbn [vars raws hp].
      pose proof (all_ptrs_upd x (hp s) o (Some (mkObj (refs ob) (upd (fields ob) k p))) _ E) as AU. cbn [ofields fields] in AU.
      pose proof (sum_upd (one x) (fields ob) k p _ E2) as SU. unfold cnt in *. lia.
    + intros x. rewrite (refs_upd _ _ _ _ E). destruct (Nat.eqb_spec o x) as [<-|]; [|reflexivity]. unfold refs_of. rewrite E. reflexivity.
    + intros HP y oy Hy. rewrite nth_upd in Hy. destruct (Nat.eqb o y && (o <? length (hp s))); [|eapply HP; eauto].
      injection Hy as <-. cbn [refs]. eapply HP; eauto.
    + apply upd_length.
    + intros [w|o' k']; cbn [loc_eqb]; unfold value; cbn [read vars hp]; [reflexivity|]. unfold get_obj. rewrite nth_upd.
      destruct (Nat.eqb_spec o o') as [<-|]; cbn [andb]; [|reflexivity].
      assert (o < length (hp s)) by (apply nth_error_Some; congruence). apply Nat.ltb_lt in H. rewrite H, E. cbn [bind fields].
      rewrite nth_upd. destruct (Nat.eqb_spec k k') as [<-|]; cbn [andb]; [|reflexivity].
      assert (k < length (fields ob)) by (apply nth_error_Some; congruence). apply Nat.ltb_lt in H0. rewrite H0. reflexivity.
Qed.

(** ref *)
Lemma ref_ok s p : J s (fun _ => 0) -> (forall x, p = Some x -> alive s x) ->
  exists h, ref (hp s) p = Ok h /\ J (with_hp s h) (fun x => one x p) /\ length h = length (hp s) /\
    (forall l, read (with_hp s h) l = read s l).
Proof.
  intros [HB HP] HA. destruct p as [o|]; cbn [ref].
  - destruct (HA o eq_refl) as [ob E]. unfold get_obj. rewrite E. cbn [bind]. eexists. split; [reflexivity|]. repeat split.
    + intros x. unfold ownc. cbn [with_hp vars raws hp]. rewrite (refs_upd _ _ _ _ E). cbn [refs one].
      pose proof (all_ptrs_upd x (hp s) o (Some (mkObj (S (refs ob)) (fields ob))) _ E) as AU. cbn [ofields fields] in AU.
      specialize (HB x). unfold ownc in HB. destruct (Nat.eqb_spec o x) as [<-|]; [|lia]. unfold refs_of in HB. rewrite E in HB. lia.
    + intros y oy Hy. cbn [with_hp hp] in Hy. rewrite nth_upd in Hy. destruct (Nat.eqb o y && (o <? length (hp s))); [|eapply HP; eauto].
      injection Hy as <-. cbn [refs]. lia.
    + apply upd_length.
    + intros [v|o' k]; [reflexivity|]. cbn [read with_hp hp]. unfold get_obj. rewrite nth_upd.
      destruct (Nat.eqb_spec o o') as [<-|]; cbn [andb]; [|reflexivity]. rewrite E. destruct (o <? length (hp s)); reflexivity.
  - exists (hp s). split; [reflexivity|]. repeat split; auto.
Qed.

Lemma push_ok s p : J s (fun x => one x p) -> J (push_var s p) (fun _ => 0).
Proof.
  intros [HB HP]. split; [|exact HP]. intros x. specialize (HB x). unfold ownc in *. cbn [push_var vars raws hp].
  rewrite map_app, cnt_app. cbn [map vv]. rewrite cnt_cons. change (cnt x []) with 0. lia.
Qed.

Lemma push_value s p l : value (push_var s p) l = if loc_eqb (LVar (length (vars s))) l then Some p else value s l.
Proof.
  destruct l as [v|o k]; cbn [loc_eqb]; unfold value; cbn [read push_var vars hp]; [|reflexivity].
  destruct (Nat.eqb_spec (length (vars s)) v) as [<-|N].
  - rewrite nth_error_app2, Nat.sub_diag by lia. reflexivity.
  - destruct (Nat.ltb_spec v (length (vars s))).
    + rewrite nth_error_app1 by lia. reflexivity.
    + rewrite nth_error_app2 by lia. destruct (v - length (vars s)) as [|d] eqn:D; [lia|]. cbn [nth_error]. destruct d; cbn [nth_error];
      assert (nth_error (vars s) v = None) as -> by (apply nth_error_None; lia); reflexivity.
Qed.

Lemma eval_read s p l : eval s p = Ok l -> exists v, read s l = Ok v.
Proof.
  unfold eval. destruct (follow s (LVar (pvar p)) (pmembers p)) as [l'| |]; cbn [bind]; try discriminate.
  destruct (read s l') as [v| |] eqn:E; cbn [bind]; try discriminate. intros [= <-]. eauto.
Qed.

Lemma value_read s l p : value s l = Some p <-> read s l = Ok p.
Proof. unfold value. destruct (read s l); split; congruence. Qed.

Lemma assign_ok s l v old : J s (fun x => one x v) -> read s l = Ok old ->
  exists s', assign_value s l v = Ok s' /\ J s' (fun _ => 0) /\
    (forall l' p, read s' l' = Ok p -> (if loc_eqb l l' then Some v else value s l') = Some p).
Proof.
  intros HJ HR. unfold assign_value. rewrite HR. cbn [bind].
  destruct (write_ok s l old v HR) as (s1 & E1 & O1 & R1 & P1 & _ & _ & _ & V1). rewrite E1. cbn [bind].
  assert (J1 : J s1 (fun x => one x old)).
  { destruct HJ as [HB HP]. split; [|auto]. intros x. rewrite O1, R1. apply HB. }
  destruct (unref_ok s1 old J1) as (h & E2 & J2 & _ & V2). rewrite E2. cbn [bind].
  eexists. split; [reflexivity|]. split; [exact J2|]. intros l' p Hr. apply V2 in Hr. apply value_read in Hr. rewrite V1 in Hr. exact Hr.
Qed.

Lemma cnt_remove x l r o : nth_error l r = Some o -> cnt x (map Some (remove_nth l r)) + one x (Some o) = cnt x (map Some l).
Proof.
  revert r. induction l as [|a l IH]; intros [|r] H; cbn [nth_error remove_nth map] in *; try discriminate.
  - injection H as ->. rewrite cnt_cons. lia.
  - rewrite !cnt_cons. specialize (IH r H). lia.
Qed.

(** Every allowed operation succeeds, keeps the books and assigns what it should. *)
Lemma step_ok s o : J s (fun _ => 0) -> op_ok s o ->
  exists s', step s o = Ok s' /\ J s' (fun _ => 0) /\
    (forall l p, read s' l = Ok p -> after s (assigns s o) l = Some p).
Proof.
  intros HJ HO. destruct o as [k| |p|p|v|p q|p q|p|p q|p|r|r]; cbn [op_ok step] in *.
  - (* new *)
    eexists. split; [reflexivity|]. split.
    + destruct HJ as [HB HP]. split.
      * intros x. unfold ownc, refs_of. cbn [vars raws hp]. rewrite map_app, cnt_app. cbn [map vv]. rewrite cnt_cons. change (cnt x []) with 0.
        unfold all_ptrs. rewrite flat_map_app. cbn [flat_map fields]. rewrite app_nil_r, cnt_app.
        assert (cnt x (repeat (@None nat) k) = 0) as -> by (induction k; cbn; auto).
        specialize (HB x). unfold ownc, refs_of in HB. cbn [one]. fold (all_ptrs (hp s)).
        destruct (Nat.eqb_spec (length (hp s)) x) as [<-|N].
        -- rewrite nth_error_app2, Nat.sub_diag by lia. cbn [nth_error refs].
           assert (nth_error (hp s) (length (hp s)) = None) as EN by (apply nth_error_None; lia). rewrite EN in HB. lia.
        -- destruct (Nat.ltb_spec x (length (hp s))).
           ++ rewrite nth_error_app1 by lia. lia.
           ++ rewrite nth_error_app2 by lia. assert (nth_error (hp s) x = None) as EN by (apply nth_error_None; lia). rewrite EN in HB.
              destruct (x - length (hp s)) as [|d] eqn:D; [lia|]. cbn [nth_error]. destruct d; cbn [nth_error]; lia.
      * intros y oy Hy. cbn [hp] in Hy. destruct (Nat.ltb_spec y (length (hp s))).
        -- rewrite nth_error_app1 in Hy by lia. eapply HP; eauto.
        -- rewrite nth_error_app2 in Hy by lia. destruct (y - length (hp s)) as [|d]; cbn [nth_error] in Hy; [injection Hy as <-; cbn; lia|].
           destruct d; discriminate Hy.
    + intros l p. unfold after, assigns. cbn [fold_left fst snd].
      assert (FL : forall ks acc l, fold_left (fun acc (x : loc * ptr) => if loc_eqb (fst x) l then Some (snd x) else acc)
        (map (fun j => (LField (length (hp s)) j, @None nat)) ks) acc =
        match l with LField o j => if Nat.eqb (length (hp s)) o && existsb (Nat.eqb j) ks then Some None else acc | _ => acc end).
      { clear. induction ks as [|j0 ks IH]; intros acc l; cbn [map fold_left fst snd existsb].
        - destruct l; rewrite ?andb_false_r; reflexivity.
        - rewrite IH. destruct l as [v|o j]; cbn [loc_eqb]; [reflexivity|].
          destruct (Nat.eqb (length (hp s)) o); cbn [andb]; [|reflexivity]. rewrite (Nat.eqb_sym j0 j).
          destruct (Nat.eqb j j0); cbn [orb]; [|reflexivity]. destruct (existsb (Nat.eqb j) ks); reflexivity. }
      rewrite FL. destruct l as [v|o j]; cbn [read vars hp loc_eqb].
      * unfold value. cbn [read]. destruct (Nat.eqb_spec (length (vars s)) v) as [<-|N].
        -- rewrite nth_error_app2, Nat.sub_diag by lia. cbn [nth_error]. congruence.
        -- destruct (Nat.ltb_spec v (length (vars s))).
           ++ rewrite nth_error_app1 by lia. destruct (nth_error (vars s) v) as [[?|]|]; congruence.
           ++ rewrite nth_error_app2 by lia. destruct (v - length (vars s)) as [|d] eqn:D; [lia|]. cbn [nth_error]. destruct d; intros HX; discriminate HX.
      * unfold get_obj. destruct (Nat.eqb_spec (length (hp s)) o) as [<-|N]; cbn [andb].
        -- rewrite nth_error_app2, Nat.sub_diag by lia. cbn [nth_error bind fields].
           unfold ptr in *. destruct (nth_error (repeat (@None nat) k) j) as [q|] eqn:Eq; [|intros HX; discriminate HX]. intros [= <-].
           assert (j < k). { rewrite <- (repeat_length (@None nat) k). apply nth_error_Some. rewrite Eq. discriminate. }
           assert (existsb (Nat.eqb j) (seq 0 k) = true) as ->.
           { apply existsb_exists. exists j. split; [apply in_seq; lia|apply Nat.eqb_refl]. }
           apply nth_error_In, repeat_spec in Eq. subst. reflexivity.
        -- unfold value. cbn [read]. unfold get_obj. destruct (Nat.ltb_spec o (length (hp s))).
           ++ rewrite nth_error_app1 by lia. intros E. rewrite E. reflexivity.
           ++ rewrite nth_error_app2 by lia. destruct (o - length (hp s)) as [|d] eqn:D; [lia|]. cbn [nth_error]. destruct d; intros HX; discriminate HX.
  - (* null *)
    eexists. split; [reflexivity|]. split; [apply push_ok; exact HJ|]. intros l p Hr. apply value_read in Hr.
    rewrite push_value in Hr. unfold after, assigns. cbn [fold_left fst snd]. exact Hr.
  - (* copy *)
    destruct HO as [l El]. rewrite El. cbn [bind]. destruct (eval_read _ _ _ El) as [v Er]. rewrite Er. cbn [bind].
    destruct (ref_ok s v HJ) as (h & Eh & Jh & _ & Rh).
    { intros x ->. eapply owned_alive; [exact HJ|]. eapply read_owned; exact Er. }
    rewrite Eh. cbn [bind]. eexists. split; [reflexivity|]. split; [apply push_ok; exact Jh|].
    intros l' p' Hr. apply value_read in Hr. rewrite push_value in Hr. unfold after, assigns. rewrite El.
    apply value_read in Er. rewrite Er. cbn [fold_left fst snd]. cbn [with_hp vars] in Hr.
    unfold value in Hr at 1. rewrite Rh in Hr. exact Hr.
  - (* move *)
    destruct HO as [l El]. rewrite El. cbn [bind]. destruct (eval_read _ _ _ El) as [v Er]. unfold release. rewrite Er. cbn [bind].
    destruct (write_ok s l v None Er) as (s1 & E1 & O1 & R1 & P1 & _ & LV & _ & V1). rewrite E1. cbn [bind].
    eexists. split; [reflexivity|]. split.
    + apply push_ok. destruct HJ as [HB HP]. split; [|auto]. intros x. rewrite O1, R1. cbn [one]. rewrite Nat.add_0_r.
      rewrite <- (HB x). lia.
    + intros l' p' Hr. apply value_read in Hr. rewrite push_value, LV, V1 in Hr. unfold after, assigns. rewrite El.
      apply value_read in Er. rewrite Er. cbn [fold_left fst snd]. exact Hr.
  - (* destroy *)
    destruct HO as [p Ep]. cbn [read]. rewrite Ep. cbn [bind].
    set (s1 := mkSt (upd (vars s) v None) (raws s) (hp s)).
    assert (J1 : J s1 (fun x => one x p)).
    { destruct HJ as [HB HP]. split; [|exact HP]. intros x. specialize (HB x). unfold ownc in *. cbn [s1 vars raws hp].
      pose proof (sum_upd (fun e => one x (vv e)) (vars s) v None _ Ep) as SU. cbn [vv one] in SU. unfold cnt in *. rewrite !map_map in *. lia. }
    destruct (unref_ok s1 p J1) as (h & E2 & J2 & _ & V2). cbv zeta. rewrite E2. cbn [bind].
    eexists. split; [reflexivity|]. split; [exact J2|]. intros l q Hr. apply V2 in Hr. unfold after, assigns. cbn [fold_left].
    apply value_read. destruct l as [w|o j]; cbn [read s1 vars hp] in *; [|exact Hr].
    rewrite nth_upd in Hr. destruct (Nat.eqb v w && (v <? length (vars s))); [discriminate|exact Hr].
  - (* copy assignment *)
    destruct HO as [[lp Elp] [lq Elq]]. rewrite Elp, Elq. cbn [bind]. destruct (eval_read _ _ _ Elq) as [w Ew]. rewrite Ew. cbn [bind].
    destruct (eval_read _ _ _ Elp) as [old Eo].
    destruct (ref_ok s w HJ) as (h & Eh & Jh & _ & Rh).
    { intros x ->. eapply owned_alive; [exact HJ|]. eapply read_owned; exact Ew. }
    rewrite Eh. cbn [bind]. destruct (assign_ok (with_hp s h) lp w old Jh ltac:(rewrite Rh; exact Eo)) as (s' & E' & J' & V').
    exists s'. split; [exact E'|]. split; [exact J'|]. intros l q0 Hr. apply V' in Hr. unfold after, assigns.
    rewrite Elp. apply value_read in Eo. rewrite Eo, Elq. apply value_read in Ew. rewrite Ew. cbn [fold_left fst snd].
    unfold value in Hr. rewrite Rh in Hr. exact Hr.
  - (* move assignment *)
    destruct HO as [[lp Elp] [lq Elq]]. rewrite Elp, Elq. cbn [bind]. destruct (eval_read _ _ _ Elq) as [w Ew]. unfold release. rewrite Ew. cbn [bind].
    destruct (eval_read _ _ _ Elp) as [old Eo].
    destruct (write_ok s lq w None Ew) as (s1 & E1 & O1 & R1 & P1 & _ & LV & _ & V1). rewrite E1. cbn [bind].
    assert (J1 : J s1 (fun x => one x w)).
    { destruct HJ as [HB HP]. split; [|auto]. intros x. rewrite O1, R1. cbn [one]. rewrite Nat.add_0_r, <- (HB x). lia. }
    assert (Eo1 : exists old1, read s1 lp = Ok old1).
    { assert (value s1 lp <> None). { rewrite V1. destruct (loc_eqb lq lp); [discriminate|]. apply value_read in Eo. congruence. }
      unfold value in H. destruct (read s1 lp) as [o1| |]; [eauto|congruence|congruence]. }
    destruct Eo1 as [old1 Eo1]. destruct (assign_ok s1 lp w old1 J1 Eo1) as (s' & E' & J' & V').
    exists s'. split; [exact E'|]. split; [exact J'|]. intros l q0 Hr. apply V' in Hr. rewrite V1 in Hr. unfold after, assigns.
    rewrite Elp. apply value_read in Eo. rewrite Eo, Elq. apply value_read in Ew. rewrite Ew. cbn [fold_left fst snd]. exact Hr.
  - (* null assignment *)
    destruct HO as [lp Elp]. rewrite Elp. cbn [bind]. destruct (eval_read _ _ _ Elp) as [old Eo].
    destruct (assign_ok s lp None old HJ Eo) as (s' & E' & J' & V').
    exists s'. split; [exact E'|]. split; [exact J'|]. intros l q0 Hr. apply V' in Hr. unfold after, assigns.
    rewrite Elp. apply value_read in Eo. rewrite Eo. cbn [fold_left fst snd]. exact Hr.
  - (* swap *)
    destruct HO as [[lp Elp] [lq Elq]]. rewrite Elp, Elq. cbn [bind]. destruct (eval_read _ _ _ Elp) as [a Ea]. destruct (eval_read _ _ _ Elq) as [b Eb].
    rewrite Ea, Eb. cbn [bind]. destruct (write_ok s lp a b Ea) as (s1 & E1 & O1 & R1 & P1 & _ & _ & _ & V1). rewrite E1. cbn [bind].
    assert (Eb1 : read s1 lq = Ok b).
    { apply value_read. rewrite V1. destruct (loc_eqb lp lq); [reflexivity|]. apply value_read. exact Eb. }
    destruct (write_ok s1 lq b a Eb1) as (s2 & E2 & O2 & R2 & P2 & _ & _ & _ & V2). exists s2. split; [exact E2|]. split.
    + destruct HJ as [HB HP]. split; [|auto]. intros x. rewrite R2, R1, <- (HB x). specialize (O1 x). specialize (O2 x). lia.
    + intros l q0 Hr. apply value_read in Hr. rewrite V2, V1 in Hr. unfold after, assigns. rewrite Elp.
      apply value_read in Ea, Eb. rewrite Ea, Elq, Eb. cbn [fold_left fst snd]. exact Hr.
  - (* release *)
    destruct HO as [l El]. rewrite El. cbn [bind]. destruct (eval_read _ _ _ El) as [v Er]. unfold release. rewrite Er. cbn [bind].
    destruct (write_ok s l v None Er) as (s1 & E1 & O1 & R1 & P1 & RR & _ & _ & V1). rewrite E1. cbn [bind].
    eexists. split; [reflexivity|]. assert (J1 : J s1 (fun x => one x v)).
    { destruct HJ as [HB HP]. split; [|auto]. intros x. rewrite O1, R1. cbn [one]. rewrite Nat.add_0_r, <- (HB x). lia. }
    split.
    + destruct v as [o|]; [|exact J1]. destruct J1 as [HB HP]. split; [|exact HP]. intros x. specialize (HB x). unfold ownc in *. cbn [vars raws hp].
      rewrite map_app, cnt_app. cbn [map]. rewrite cnt_cons. change (cnt x []) with 0. lia.
    + intros l' q Hr. assert (Hr' : read s1 l' = Ok q) by (destruct v; exact Hr). apply value_read in Hr'. rewrite V1 in Hr'.
      unfold after, assigns. rewrite El. apply value_read in Er. rewrite Er. cbn [fold_left fst snd]. exact Hr'.
  - (* adopt *)
    destruct (nth_error (raws s) r) as [o|] eqn:E; [|apply nth_error_None in E; lia].
    eexists. split; [reflexivity|]. split.
    + destruct HJ as [HB HP]. split; [|exact HP]. intros x. specialize (HB x). unfold ownc in *. cbn [vars raws hp].
      rewrite map_app, cnt_app. cbn [map vv]. rewrite cnt_cons. change (cnt x []) with 0. pose proof (cnt_remove x _ _ _ E). lia.
    + intros l q Hr. assert (Hr' : read (push_var s (Some o)) l = Ok q) by (destruct l; exact Hr).
      apply value_read in Hr'. rewrite push_value in Hr'. unfold after, assigns. rewrite E. cbn [fold_left fst snd]. exact Hr'.
  - (* new reference *)
    destruct (nth_error (raws s) r) as [o|] eqn:E; [|apply nth_error_None in E; lia].
    destruct (ref_ok s (Some o) HJ) as (h & Eh & Jh & _ & Rh).
    { intros x [= <-]. eapply owned_alive; [exact HJ|]. right. left. exists r. exact E. }
    rewrite Eh. cbn [bind]. eexists. split; [reflexivity|]. split; [apply push_ok; exact Jh|].
    intros l' p' Hr. apply value_read in Hr. rewrite push_value in Hr. unfold after, assigns. rewrite E.
    cbn [fold_left fst snd]. cbn [with_hp vars] in Hr. unfold value in Hr at 1. rewrite Rh in Hr. exact Hr.
Qed.

Lemma init_J : J init (fun _ => 0).
Proof. split; [intros x; unfold refs_of; cbn; destruct x; reflexivity|]. intros o ob E. destruct o; discriminate E. Qed.

Lemma reachable_J s : reachable s -> J s (fun _ => 0).
Proof.
  induction 1 as [|s o s' HR IH HO HS]; [exact init_J|]. destruct (step_ok s o IH HO) as (s2 & E & J2 & _). congruence.
Qed.
