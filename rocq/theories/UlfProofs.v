(** Proofs: the shape of the events *)
From Coq Require Import List Bool Arith Lia.
From Verif Require Import UlfModel UlfSpec.
Import ListNotations.

Scheme unit_mut := Induction for unit_ Sort Prop
  with items_mut := Induction for items Sort Prop
  with item_mut := Induction for item Sort Prop
  with cases_mut := Induction for cases Sort Prop
  with dflt_mut := Induction for dflt Sort Prop
  with field_mut := Induction for field Sort Prop
  with ftype_mut := Induction for ftype Sort Prop
  with elem_mut := Induction for elem Sort Prop.
Combined Scheme syntax_ind from unit_mut, items_mut, item_mut, cases_mut, dflt_mut, field_mut, ftype_mut, elem_mut.

(** ** Running *)
Lemma bind_inv A B (m : M A) (k : A -> M B) s r s' : bind m k s = (r, s') ->
  (exists a s1, m s = (Ok a, s1) /\ k a s1 = (r, s'))
  \/ (exists e, m s = (Err e, s') /\ r = Err e) \/ (m s = (Div, s') /\ r = Div).
Proof.
  unfold bind. destruct (m s) as [[a|e|] s1] eqn:E; intros H.
  - left. eauto.
  - inversion H; subst. right. left. eauto.
  - inversion H; subst. right. right. eauto.
Qed.
Lemma ret_inv A (a : A) s r s' : ret a s = (r, s') -> r = Ok a /\ s' = s.
Proof. unfold ret. intros H. inversion H. auto. Qed.
Lemma throw_inv A (e : err) s (r : rs A) s' : throw e s = (r, s') -> r = Err e /\ s' = s.
Proof. unfold throw. intros H. inversion H. auto. Qed.
Lemma gets_inv A (f : st -> A) s r s' : gets f s = (r, s') -> r = Ok (f s) /\ s' = s.
Proof. unfold gets. intros H. inversion H. auto. Qed.
Lemma eval_inv A (e : expr A) dd s r s' : eval e dd s = (r, s') ->
  s' = s /\ ((exists a, e (sw s) dd = Val a /\ r = Ok a) \/ (exists x, e (sw s) dd = Exc x /\ r = Err x)).
Proof.
  unfold eval. destruct (e (sw s) dd) as [a|x] eqn:E; intros H; inversion H; subst; (split; [reflexivity|]).
  - left. eauto.
  - right. eauto.
Qed.
Lemma call_inv A ev (h : world -> world * A) s r s' : call ev h s = (r, s') ->
  r = Ok (snd (h (sw s))) /\ s' = {| sw := fst (h (sw s)); sin := sin s; str := str s ++ [ev (sw s)] |}.
Proof.
  unfold call, gets, emit, put, ret, bind. cbn. destruct (h (sw s)) as [w' a] eqn:E. cbn.
  intros H. inversion H. auto.
Qed.
Lemma check_inv x s r s' : check x s = (r, s') -> s' = s /\ r = match x with None => Ok tt | Some e => Err e end.
Proof. destruct x; cbn; intros H; inversion H; auto. Qed.
Lemma callc_inv ev (h : world -> world * option err) s r s' : (do x <- call ev h; check x) s = (r, s') ->
  r = match snd (h (sw s)) with None => Ok tt | Some e => Err e end
  /\ s' = {| sw := fst (h (sw s)); sin := sin s; str := str s ++ [ev (sw s)] |}.
Proof.
  intros H. apply bind_inv in H as [(a & s1 & H1 & H2)|[(e & H1 & _)|[H1 _]]]; apply call_inv in H1 as [E1 E2]; try discriminate.
  apply check_inv in H2 as [-> ->]. inversion E1; subst. auto.
Qed.

(** ** Computations without events *)
Definition quiet {A} (m : M A) : Prop := forall s r s', m s = (r, s') -> str s' = str s.
Definition pure {A} (m : M A) : Prop := forall s r s', m s = (r, s') -> s' = s.
(** the world is as before; only input may be taken *)
Definition tame {A} (m : M A) : Prop := forall s r s', m s = (r, s') -> str s' = str s /\ sw s' = sw s.

Lemma pure_tame A (m : M A) : pure m -> tame m. Proof. intros H s r s' E. apply H in E. subst. auto. Qed.
Lemma tame_quiet A (m : M A) : tame m -> quiet m. Proof. intros H s r s' E. apply H in E. tauto. Qed.
Lemma pure_bind A B (m : M A) (k : A -> M B) : pure m -> (forall a, pure (k a)) -> pure (bind m k).
Proof. intros Hm Hk s r s' H. apply bind_inv in H as [(a & s1 & H1 & H2)|[(e & H1 & _)|[H1 _]]]; apply Hm in H1; subst; auto. apply Hk in H2. assumption. Qed.
Lemma quiet_bind A B (m : M A) (k : A -> M B) : quiet m -> (forall a, quiet (k a)) -> quiet (bind m k).
Proof.
  intros Hm Hk s r s' H. apply bind_inv in H as [(a & s1 & H1 & H2)|[(e & H1 & _)|[H1 _]]]; apply Hm in H1; auto.
  apply Hk in H2. congruence.
Qed.
Lemma tame_bind A B (m : M A) (k : A -> M B) : tame m -> (forall a, tame (k a)) -> tame (bind m k).
Proof.
  intros Hm Hk s r s' H. apply bind_inv in H as [(a & s1 & H1 & H2)|[(e & H1 & _)|[H1 _]]]; apply Hm in H1; auto.
  apply Hk in H2. destruct H1, H2. split; congruence.
Qed.
Lemma pure_ret A (a : A) : pure (ret a). Proof. intros s r s' H. apply ret_inv in H. tauto. Qed.
Lemma pure_throw A e : pure (@throw A e). Proof. intros s r s' H. apply throw_inv in H. tauto. Qed.
Lemma pure_gets A (f : st -> A) : pure (gets f). Proof. intros s r s' H. apply gets_inv in H. tauto. Qed.
Lemma pure_eval A (e : expr A) dd : pure (eval e dd). Proof. intros s r s' H. apply eval_inv in H. tauto. Qed.
Lemma tame_putin i : tame (putin i). Proof. intros s r s' H. inversion H. auto. Qed.
Lemma quiet_put w : quiet (put w). Proof. intros s r s' H. inversion H. auto. Qed.
Lemma pure_requires l dd : pure (requires l dd).
Proof.
  induction l as [|r l IH]; cbn [requires]; [apply pure_ret|]. apply pure_bind; [apply pure_eval|]. intros [|]; [exact IH|apply pure_throw].
Qed.
Lemma requires_ok l dd s s' : requires l dd s = (Ok tt, s') -> Forall (fun r => r (sw s) dd = Val true) l.
Proof.
  revert s. induction l as [|r l IH]; intros s H; [constructor|]. cbn [requires] in H.
  apply bind_inv in H as [(b & s1 & H1 & H2)|[(e & _ & H)|[_ H]]]; try discriminate.
  apply eval_inv in H1 as [-> [(a & E & Ea)|(x & E & Ea)]]; inversion Ea; subst.
  destruct a; [|apply throw_inv in H2 as [H2 _]; discriminate]. constructor; [exact E|apply IH; exact H2].
Qed.
Lemma pure_convert c v : pure (convert c v). Proof. destruct c; [apply pure_eval|apply pure_ret]. Qed.
Lemma convert_ok c v s a s' : convert c v s = (Ok a, s') -> match c with None => a = v | Some e => e (sw s) v = Val a end.
Proof.
  destruct c; cbn [convert]; intros H.
  - apply eval_inv in H as [_ [(x & E & Ea)|(x & E & Ea)]]; inversion Ea; subst; exact E.
  - apply ret_inv in H as [H _]. inversion H. reflexivity.
Qed.
Lemma quiet_set_self x v : quiet (set_self x v).
Proof. apply quiet_bind; [apply tame_quiet, pure_tame, pure_gets|]. intros w. apply quiet_put. Qed.
Lemma set_self_inv x v s r s' : set_self x v s = (r, s') -> r = Ok tt /\ s' = {| sw := storing x v (sw s); sin := sin s; str := str s |}.
Proof. intros H. inversion H. auto. Qed.
Lemma tame_take n : tame (take n).
Proof.
  apply tame_bind; [apply pure_tame, pure_gets|]. intros i. destruct (n <=? length i).
  - apply tame_bind; [apply tame_putin|]. intros _. apply pure_tame, pure_ret.
  - apply pure_tame, pure_throw.
Qed.
Lemma quiet_stored d v : quiet (stored d v).
Proof. destruct d; [apply quiet_set_self|apply tame_quiet, pure_tame, pure_ret]. Qed.
Lemma quiet_push d v acc : quiet (push d v acc).
Proof.
  destruct d as [x|]; [|apply tame_quiet, pure_tame, pure_ret]. apply quiet_bind; [apply tame_quiet, pure_tame, pure_gets|].
  intros w. destruct (get (self w) x) as [[| | |l|]|]; try apply tame_quiet, pure_tame, pure_throw.
  apply quiet_bind; [apply quiet_set_self|]. intros _. apply tame_quiet, pure_tame, pure_ret.
Qed.
Lemma quiet_push_elem d v b acc : quiet (push_elem d v b acc).
Proof. destruct b; [apply tame_quiet, pure_tame, pure_ret|apply quiet_push]. Qed.
Lemma pure_matches v vs : pure (matches val_eqb v vs).
Proof.
  induction vs as [|e vs IH]; cbn [matches]; [apply pure_ret|]. apply pure_bind; [apply pure_eval|]. intros x.
  destruct (val_eqb v x); [apply pure_ret|exact IH].
Qed.
Lemma pure_progress i : pure (progress i).
Proof.
  apply pure_bind; [apply pure_gets|]. intros j. destruct (_ && _); [apply pure_throw|apply pure_ret].
Qed.

(** ** Events of a computation: [em m Q]: the events satisfy [Q] *)
Definition em {A} (m : M A) (Q : rs A -> list event -> Prop) : Prop :=
  forall s r s', m s = (r, s') -> exists t, str s' = str s ++ t /\ Q r t.
Lemma em_weaken A (m : M A) (Q Q' : rs A -> list event -> Prop) : em m Q -> (forall r t, Q r t -> Q' r t) -> em m Q'.
Proof. intros H HQ s r s' E. destruct (H _ _ _ E) as (t & E1 & E2). eauto. Qed.
Lemma em_bind A B (m : M A) (k : A -> M B) Q1 (Q2 : rs B -> list event -> Prop) (Q : rs B -> list event -> Prop) :
  em m Q1 -> (forall a, em (k a) Q2) ->
  (forall a r t1 t2, Q1 (Ok a) t1 -> Q2 r t2 -> Q r (t1 ++ t2)) ->
  (forall e t, Q1 (Err e) t -> Q (Err e) t) -> (forall t, Q1 Div t -> Q Div t) -> em (bind m k) Q.
Proof.
  intros Hm Hk H1 H2 H3 s r s' H. apply bind_inv in H as [(a & s1 & E1 & E2)|[(e & E1 & ->)|[E1 ->]]].
  - destruct (Hm _ _ _ E1) as (t1 & F1 & G1). destruct (Hk _ _ _ _ E2) as (t2 & F2 & G2).
    exists (t1 ++ t2). split; [rewrite F2, F1, app_assoc; reflexivity|eauto].
  - destruct (Hm _ _ _ E1) as (t & F & G). eauto.
  - destruct (Hm _ _ _ E1) as (t & F & G). eauto.
Qed.
Lemma em_quiet A (m : M A) (Q : rs A -> list event -> Prop) : quiet m -> (forall r, Q r []) -> em m Q.
Proof. intros H HQ s r s' E. exists []. rewrite app_nil_r. split; [eauto|apply HQ]. Qed.

(** Predicates closed under sequence whatever the result *)
Definition evs {A} (P : list event -> Prop) (m : M A) : Prop := em m (fun _ t => P t).
Lemma evs_bind A B (P : list event -> Prop) (m : M A) (k : A -> M B) :
  (forall a b, P a -> P b -> P (a ++ b)) -> evs P m -> (forall a, evs P (k a)) -> evs P (bind m k).
Proof. intros HP Hm Hk. eapply em_bind; [exact Hm|exact Hk| | |]; cbn; auto. Qed.
Lemma evs_quiet A (P : list event -> Prop) (m : M A) : quiet m -> P [] -> evs P m.
Proof. intros. apply em_quiet; auto. Qed.
Lemma evs_call A (P : list event -> Prop) ev (h : world -> world * A) : (forall w, P [ev w]) -> evs P (call ev h).
Proof. intros HP s r s' H. apply call_inv in H as [_ ->]. exists [ev (sw s)]. auto. Qed.
Lemma evs_callc (P : list event -> Prop) ev (h : world -> world * option err) : (forall w, P [ev w]) -> evs P (do x <- call ev h; check x).
Proof. intros HP s r s' H. apply callc_inv in H as [_ ->]. exists [ev (sw s)]. auto. Qed.
Lemma evs_emit (P : list event -> Prop) e : P [e] -> evs P (emit e).
Proof. intros HP s r s' H. inversion H. exists [e]. auto. Qed.
Lemma evs_wrap A (P : list event -> Prop) (Q : list event -> Prop) c (m : M A) : evs Q m -> (forall t, Q t -> P [c t]) -> evs P (wrap c m).
Proof.
  intros Hm HP s r s' H. unfold wrap in H. destruct (m _) as [r1 s1] eqn:E. inversion H; subst. cbn.
  destruct (Hm _ _ _ E) as (t & F & G). cbn in F. exists [c t]. rewrite F. auto.
Qed.

Lemma run_each_cases f each v b s r s' : run_each f each v b s = (r, s') ->
  (s' = {| sw := sw s; sin := sin s; str := str s ++ [EvItem v (sw s)] |} /\ r = Ok b /\ (b = true \/ each = None))
  \/ (exists h, each = Some h /\ b = false
        /\ s' = {| sw := fst (fst (h v (sw s))); sin := sin s; str := str s ++ [EvItem v (sw s); EvEach f v (sw s)] |}
        /\ r = match snd (h v (sw s)) with None => Ok (snd (fst (h v (sw s)))) | Some e => Err e end).
Proof.
  unfold run_each. intros H.
  apply bind_inv in H as [([] & s1 & H1 & H2)|[(e & H1 & _)|[H1 _]]]; [|cbv in H1; discriminate..].
  assert (Es1 : s1 = {| sw := sw s; sin := sin s; str := str s ++ [EvItem v (sw s)] |}) by (cbv in H1; inversion H1; reflexivity).
  subst s1. destruct b; [left; apply ret_inv in H2 as [-> ->]; auto|].
  destruct each as [h|]; [|left; apply ret_inv in H2 as [-> ->]; auto].
  right. exists h. split; [reflexivity|]. split; [reflexivity|].
  apply bind_inv in H2 as [(x & s2 & H2 & H3)|[(e & H2 & _)|[H2 _]]]; apply call_inv in H2 as [E1 E2]; try discriminate.
  cbn [sw sin str] in *. destruct (h v (sw s)) as [[w' b'] e'] eqn:Eh. cbn [fst snd] in *. inversion E1; subst. cbn [fst snd] in H3.
  apply bind_inv in H3 as [([] & s3 & H3 & H4)|[(e & H3 & ->)|[H3 _]]]; apply check_inv in H3 as [-> E3].
  - destruct e'; [discriminate|]. apply ret_inv in H4 as [-> ->]. cbn. rewrite <- app_assoc. auto.
  - destruct e'; [|discriminate]. inversion E3. cbn. rewrite <- app_assoc. auto.
  - destruct e'; discriminate.
Qed.
Lemma evs_run_each (P : list event -> Prop) f each v b :
  (forall w, P [EvItem v w]) -> (forall w, P [EvItem v w; EvEach f v w]) -> evs P (run_each f each v b).
Proof. intros H1 H2 s r s' H. apply run_each_cases in H as [(-> & _)|(h & _ & _ & -> & _)]; cbn; eauto. Qed.

Ltac qt := first [apply tame_quiet, pure_tame, pure_ret | apply tame_quiet, pure_tame, pure_throw | apply tame_quiet, pure_tame, pure_gets
  | apply tame_quiet, pure_tame, pure_eval | apply tame_quiet, pure_tame, pure_requires | apply tame_quiet, pure_tame, pure_convert
  | apply tame_quiet, pure_tame, pure_matches | apply tame_quiet, pure_tame, pure_progress | apply tame_quiet, tame_take
  | apply tame_quiet, tame_putin | apply quiet_put | apply quiet_set_self | apply quiet_stored | apply quiet_push | apply quiet_push_elem].

Section Closed.
  Variable P : list event -> Prop.
  Hypothesis P0 : P [].
  Hypothesis Papp : forall a b, P a -> P b -> P (a ++ b).
  Lemma evs_q A (m : M A) : quiet m -> evs P m. Proof. intros. apply evs_quiet; auto. Qed.
  Lemma evs_b A B (m : M A) (k : A -> M B) : evs P m -> (forall a, evs P (k a)) -> evs P (bind m k).
  Proof. apply evs_bind. exact Papp. Qed.
  Lemma evs_new_item f m each reqs d v acc :
    (forall w, P [EvItem v w]) -> (forall w, P [EvItem v w; EvEach f v w]) -> evs P (new_item f m each reqs d v acc).
  Proof.
    intros H1 H2. assert (Hr : forall b, evs P (run_each f each v b)) by (intros; apply evs_run_each; auto).
    destruct m; cbn [new_item];
      repeat first [ apply evs_b; [first [apply evs_q; qt | apply Hr]|intros] | apply evs_q; qt
                   | match goal with |- evs _ (if ?x then _ else _) => destruct x end ].
  Qed.
  Lemma evs_counter n body acc : (forall a, evs P (body a)) -> evs P (counter n body acc).
  Proof.
    intros Hb. revert acc. induction n as [|n IH]; intros acc; cbn [counter]; [apply evs_q; qt|].
    apply evs_b; [apply Hb|]. intros [b l]. cbn. destruct b; [apply evs_q; qt|apply IH].
  Qed.
  Lemma evs_foreach n eod body acc : (forall a, evs P (body a)) -> evs P (foreach n eod body acc).
  Proof.
    intros Hb. revert acc. induction n as [|n IH]; intros acc; cbn [foreach].
    - apply evs_q. intros s r s' H. inversion H. reflexivity.
    - apply evs_b; [apply evs_q; qt|]. intros i. destruct (_ && _); [apply evs_q; qt|].
      apply evs_b; [apply Hb|]. intros [b l]. cbn. destruct b; [apply evs_q; qt|].
      apply evs_b; [apply evs_q; qt|]. intros _. apply IH.
  Qed.
  Lemma evs_try A (m : M A) h : evs P m -> (forall e, evs P (h e)) -> evs P (try_ m h).
  Proof.
    intros Hm Hh s r s' H. unfold try_ in H. destruct (m s) as [[a|e|] s1] eqn:E.
    - inversion H; subst. eapply Hm; eauto.
    - destruct (Hm _ _ _ E) as (t1 & F1 & G1). destruct (Hh _ _ _ _ H) as (t2 & F2 & G2).
      exists (t1 ++ t2). rewrite F2, F1, app_assoc. auto.
    - inversion H; subst. eapply Hm; eauto.
  Qed.
  Lemma evs_limited size m : evs P m -> evs P (limited size m).
  Proof.
    intros Hm. destruct size; cbn [limited]; [|exact Hm].
    apply evs_b; [apply evs_q; qt|intros n]. apply evs_b; [apply evs_q; qt|intros i]. apply evs_b; [apply evs_q; qt|intros _].
    apply evs_b; [exact Hm|intros _]. apply evs_b; [apply evs_q; qt|intros r]. apply evs_q. destruct (_ || _); qt.
  Qed.
End Closed.

(** ** All events are nice; %init, %done, %error and %finally of a unit are not among the events of its fields *)
Lemma calm_nil : calm []. Proof. intros e []. Qed.
Lemma calm_app a b : calm a -> calm b -> calm (a ++ b).
Proof. intros Ha Hb e H. apply in_app_or in H as [H|H]; auto. Qed.
Lemma calm1 e : life e = false -> calm [e]. Proof. intros H x [<-|[]]. exact H. Qed.
Definition fine (t : list event) : Prop := calm t /\ Forall nice t.
Lemma fine_nil : fine []. Proof. split; [apply calm_nil|constructor]. Qed.
Lemma fine_app a b : fine a -> fine b -> fine (a ++ b).
Proof. intros [A1 A2] [B1 B2]. split; [apply calm_app; auto|apply Forall_app; auto]. Qed.
Lemma fine1 e : life e = false -> nice e -> fine [e].
Proof. intros H1 H2. split; [apply calm1; exact H1|constructor; [exact H2|constructor]]. Qed.
Ltac leaf := apply nice_leaf; intros ? H; discriminate H.

(** the shape of a unit's life, and how it ends *)
Definition unit_ends (error : hookE) (finally : hook0) (r : rs unit) (t : list event) : Prop :=
  exists wi mid, Forall nice mid /\ calm mid /\
   ((r = Div /\ t = EvInit wi :: mid)
    \/ (exists wd wf, t = EvInit wi :: mid ++ [EvDone wd; EvFinally wf] /\ r = match snd (finally wf) with None => Ok tt | Some e => Err e end)
    \/ (exists dn e0 we, (dn = [] \/ exists wd, dn = [EvDone wd]) /\
          ((exists e, snd (error e0 we) = Some e /\ r = Err e /\ t = EvInit wi :: mid ++ dn ++ [EvError e0 we])
           \/ (exists wf, snd (error e0 we) = None /\ wf = fst (error e0 we)
                 /\ r = Err (match snd (finally wf) with None => e0 | Some e => e end)
                 /\ t = EvInit wi :: mid ++ dn ++ [EvError e0 we; EvFinally wf])))).

Lemma unit_ends_shape error finally r t : unit_ends error finally r t -> life_shape t /\ Forall nice t.
Proof.
  assert (L : forall w, nice (EvInit w)) by (intros; leaf). assert (L2 : forall w, nice (EvDone w)) by (intros; leaf).
  assert (L3 : forall e w, nice (EvError e w)) by (intros; leaf). assert (L4 : forall w, nice (EvFinally w)) by (intros; leaf).
  intros (wi & mid & N & C & [[_ ->]|[(wd & wf & -> & _)|(dn & e0 & we & D & [(e & _ & _ & ->)|(wf & _ & _ & _ & ->)])]]).
  - split; [|constructor; auto]. rewrite <- (app_nil_r mid). apply shape; auto.
  - split; [apply shape; eauto 10|]. constructor; [auto|]. apply Forall_app; auto.
  - destruct D as [-> |[wd ->]]; cbn [app]; (split; [apply shape; eauto 10|]); (constructor; [auto|]); apply Forall_app; auto.
  - destruct D as [-> |[wd ->]]; cbn [app]; (split; [apply shape; eauto 10|]); (constructor; [auto|]); apply Forall_app; auto.
Qed.

Definition inner_ends (r : rs unit) (t : list event) : Prop :=
  exists wi mid, Forall nice mid /\ calm mid /\
   ((r = Div /\ t = EvInit wi :: mid)
    \/ (exists wd, t = EvInit wi :: mid ++ [EvDone wd] /\ r <> Div)
    \/ (exists e, r = Err e /\ t = EvInit wi :: mid)).
Lemma stages_ends error finally m : em m inner_ends -> em (stages error finally m) (unit_ends error finally).
Proof.
  intros Hm s r s' H. unfold stages in H. apply bind_inv in H.
  assert (HT : forall r1 s1, try_ m (fun e => (do r <- call (EvError e) (error e); check r);; ((do r <- call EvFinally finally; check r);; throw e)) s = (r1, s1) ->
    exists t, str s1 = str s ++ t /\
      ((r1 = Ok tt /\ inner_ends (Ok tt) t) \/ (r1 <> Ok tt /\ unit_ends error finally r1 t))).
  { intros r1 s1 HT. unfold try_ in HT. destruct (m s) as [[[]|e|] s2] eqn:E; destruct (Hm _ _ _ E) as (t & F & G).
    - inversion HT; subst. eauto.
    - assert (exists tl wfx, str s1 = str s2 ++ tl /\ exists we,
         (tl = [EvError e we] /\ exists e', snd (error e we) = Some e' /\ r1 = Err e')
         \/ (snd (error e we) = None /\ wfx = fst (error e we) /\ tl = [EvError e we; EvFinally wfx]
             /\ r1 = Err (match snd (finally wfx) with None => e | Some e' => e' end))) as (tl & wfx & F2 & we & G2).
      { apply bind_inv in HT as [([] & s3 & H3 & H4)|[(e1 & H3 & ->)|[H3 ->]]]; apply callc_inv in H3 as [E3 ->].
        - apply bind_inv in H4 as [([] & s4 & H4 & H5)|[(e1 & H4 & ->)|[H4 ->]]]; apply callc_inv in H4 as [E4 ->]; cbn [sw sin str] in *.
          + apply throw_inv in H5 as [-> ->]. cbn [str]. destruct (snd (error e (sw s2))) eqn:Ee; [discriminate|].
            destruct (snd (finally (fst (error e (sw s2))))) eqn:Ef; [discriminate|].
            exists [EvError e (sw s2); EvFinally (fst (error e (sw s2)))], (fst (error e (sw s2))).
            split; [rewrite <- app_assoc; reflexivity|]. exists (sw s2). right. rewrite Ef. auto.
          + destruct (snd (error e (sw s2))) eqn:Ee; [discriminate|].
            destruct (snd (finally (fst (error e (sw s2))))) eqn:Ef; [|discriminate]. inversion E4; subst.
            exists [EvError e (sw s2); EvFinally (fst (error e (sw s2)))], (fst (error e (sw s2))).
            split; [rewrite <- app_assoc; reflexivity|]. exists (sw s2). right. rewrite Ef. auto.
          + destruct (snd (finally _)); discriminate.
        - destruct (snd (error e (sw s2))) eqn:Ee; [|discriminate]. inversion E3; subst. cbn [str].
          exists [EvError e (sw s2)], (sw s2). split; [reflexivity|]. exists (sw s2). left. eauto.
        - destruct (snd (error e (sw s2))); discriminate. }
      exists (t ++ tl). split; [rewrite F2, F, app_assoc; reflexivity|]. right.
      split; [destruct G2 as [(_ & e' & _ & ->)|(_ & _ & _ & ->)]; discriminate|].
      destruct G as (wi & mid & N & C & G). exists wi, mid. refine (conj N (conj C _)). right. right.
      assert (exists dn, (dn = [] \/ exists wd, dn = [EvDone wd]) /\ t = EvInit wi :: mid ++ dn) as (dn & D & ->).
      { destruct G as [[G _]|[(wd & -> & _)|(e1 & _ & ->)]]; [discriminate|exists [EvDone wd]; eauto|exists []; rewrite app_nil_r; auto]. }
      exists dn, e, we. split; [exact D|]. cbn [app]. rewrite <- app_assoc.
      destruct G2 as [(-> & e' & E1 & E2)|(E1 & E2 & -> & E3)]; [left; eauto|right; eauto 10].
    - inversion HT; subst. exists t. split; [exact F|]. right. split; [discriminate|].
      destruct G as (wi & mid & N & C & [[_ ->]|[(wd & _ & G)|(e1 & G & _)]]); [|congruence|discriminate].
      exists wi, mid. auto. }
  destruct H as [([] & s1 & H1 & H2)|[(e & H1 & ->)|[H1 ->]]]; apply HT in H1 as (t & F & [[E G]|[E G]]); try discriminate; try congruence; eauto.
  apply callc_inv in H2 as [-> ->]. cbn [str]. exists (t ++ [EvFinally (sw s1)]).
  split; [rewrite F, app_assoc; reflexivity|].
  destruct G as (wi & mid & N & C & [[G _]|[(wd & -> & _)|(e1 & G & _)]]); try discriminate.
  exists wi, mid. refine (conj N (conj C _)). right. left. exists wd, (sw s1).
  cbn [app]. rewrite <- app_assoc. auto.
Qed.
