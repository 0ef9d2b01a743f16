(** Proofs: input taken by containers of integers; loops end *)
From Coq Require Import List Bool Arith Lia.
From Verif Require Import UlfModel UlfSpec UlfProofs UlfProofs2 UlfProofs3.
Import ListNotations.

(** ** Input of containers of integers *)
Definition from_input (k : nat) (s s' : st) : Prop :=
  exists t chunks, str s' = str s ++ t /\ parsed t = map (fun c => VInt (be c)) chunks
    /\ sin s = concat chunks ++ sin s' /\ Forall (fun c => length c = k) chunks.
Lemma from_refl k s : from_input k s s.
Proof. exists [], []. rewrite app_nil_r. auto. Qed.
Lemma from_trans k a b c : from_input k a b -> from_input k b c -> from_input k a c.
Proof.
  intros (t1 & c1 & A1 & B1 & C1 & D1) (t2 & c2 & A2 & B2 & C2 & D2). exists (t1 ++ t2), (c1 ++ c2).
  split; [rewrite A2, A1, app_assoc; reflexivity|]. split; [rewrite parsed_app, map_app, B1, B2; reflexivity|].
  split; [rewrite concat_app, C1, C2, app_assoc; reflexivity|apply Forall_app; auto].
Qed.
Lemma take_inv n s r s' : take n s = (r, s') ->
  (n <= length (sin s) /\ r = Ok (firstn n (sin s)) /\ s' = {| sw := sw s; sin := skipn n (sin s); str := str s |})
  \/ (length (sin s) < n /\ r = Err e_input /\ s' = s).
Proof.
  unfold take. intros H. apply bind_inv in H as [(i & s1 & E1 & H)|[(e & E1 & ->)|[E1 ->]]]; try (cbv in E1; discriminate).
  apply gets_inv in E1 as [E1 ->]. inversion E1; subst i. destruct (Nat.leb_spec n (length (sin s))).
  - left. unfold bind, putin, ret in H. inversion H. auto.
  - right. apply throw_inv in H as [-> ->]. auto.
Qed.
Lemma sin_new_item f m each reqs d v acc s r s' : new_item f m each reqs d v acc s = (r, s') -> sin s' = sin s.
Proof.
  set (P := fun A (m : M A) => forall s r s', m s = (r, s') -> sin s' = sin s). change (P _ (new_item f m each reqs d v acc) s r s' -> sin s' = sin s) || idtac.
  assert (Pb : forall A B (m : M A) (k : A -> M B), P A m -> (forall a, P B (k a)) -> P B (bind m k)).
  { intros A B m0 k H1 H2 s0 r0 s0' H. apply bind_inv in H as [(a & s1 & E1 & H)|[(e & E1 & _)|[E1 _]]]; [|eauto..].
    rewrite (H2 _ _ _ _ H). eauto. }
  assert (Pp : forall A (m : M A), pure m -> P A m) by (intros A m0 H s0 r0 s0' E; apply H in E; subst; reflexivity).
  assert (Pr : forall b, P _ (run_each f each v b)).
  { intros b s0 r0 s0' H. apply run_each_cases in H as [(-> & _)|(h & _ & _ & -> & _)]; reflexivity. }
  assert (Pu : forall b, P _ (push_elem d v b acc)).
  { intros [|]; [apply Pp, pure_ret|]. cbn [push_elem]. destruct d as [x|]; [|apply Pp, pure_ret]. cbn [push].
    apply Pb; [apply Pp, pure_gets|]. intros w. destruct (get (self w) x) as [[| | |l|]|]; try apply Pp, pure_throw.
    apply Pb; [intros s0 r0 s0' H; inversion H; reflexivity|]. intros. apply Pp, pure_ret. }
  assert (PN : P _ (new_item f m each reqs d v acc)).
  { destruct m; cbn [new_item];
      repeat first [ apply Pb; [first [apply Pp; first [apply pure_eval | apply pure_requires] | apply Pr | apply Pu]|intros]
                   | apply Pp; apply pure_ret | match goal with |- P _ (if ?x then _ else _) => destruct x end ]. }
  apply PN.
Qed.
Lemma int_step fuel k reqs f m each d acc s stop acc' s' :
  p_elem fuel (Elem (TUInt k) None reqs) f m each d acc s = (Ok (stop, acc'), s') -> from_input k s s'.
Proof.
  intros H. cbn [p_elem p_type convert] in H.
  apply bind_inv in H as [(raw & s1 & E1 & H)|[(e & _ & X)|[_ X]]]; try discriminate.
  apply bind_inv in E1 as [(b & s2 & E1 & E2)|[(e & _ & X)|[_ X]]]; try discriminate.
  apply take_inv in E1 as [(Hl & E1 & ->)|(_ & X & _)]; [|discriminate]. inversion E1; subst b.
  apply ret_inv in E2 as [E2 ->]. inversion E2; subst raw.
  apply bind_inv in H as [(v & s3 & E3 & H)|[(e & _ & X)|[_ X]]]; try discriminate.
  apply ret_inv in E3 as [E3 ->]. inversion E3; subst v.
  pose proof (sin_new_item _ _ _ _ _ _ _ _ _ _ H) as Hs. cbn [sin] in Hs.
  apply new_item_ok in H as (b & r & s2 & _ & HR & _ & HE).
  assert (Hstr : str s' = str s2) by (destruct HE as [(_ & _ & _ & ->)|(_ & s4 & E4 & -> & _)]; [reflexivity|exact (quiet_push _ _ _ _ _ _ E4)]).
  assert (exists t, str s2 = str s ++ t /\ parsed t = [VInt (be (firstn k (sin s)))]) as (t & Ft & Pt).
  { apply run_each_cases in HR as [(-> & _)|(h & _ & _ & -> & _)]; cbn [str]; eauto. }
  exists t, [firstn k (sin s)]. rewrite Hstr, Ft, Pt, Hs. cbn. rewrite app_nil_r, firstn_skipn. split; [reflexivity|]. split; [reflexivity|].
  split; [reflexivity|]. constructor; [apply firstn_length_le; exact Hl|constructor].
Qed.
Lemma int_loops fuel k reqs f m each d n :
  (forall eod acc s l s', foreach n eod (fun acc => p_elem fuel (Elem (TUInt k) None reqs) f m each d acc) acc s = (Ok l, s') -> from_input k s s')
  /\ (forall acc s l s', counter n (fun acc => p_elem fuel (Elem (TUInt k) None reqs) f m each d acc) acc s = (Ok l, s') -> from_input k s s').
Proof.
  induction n as [|n [IH1 IH2]]; split; intros.
  - discriminate.
  - apply ret_inv in H as [_ ->]. apply from_refl.
  - cbn [foreach] in H. apply bind_inv in H as [(i & s1 & E1 & H)|[(e & _ & X)|[_ X]]]; try discriminate.
    apply gets_inv in E1 as [_ ->]. destruct (_ && _); [apply ret_inv in H as [_ ->]; apply from_refl|].
    apply bind_inv in H as [([stop acc'] & s1 & E1 & H)|[(e & _ & X)|[_ X]]]; try discriminate.
    apply int_step in E1. cbn [fst snd] in H. destruct stop; [apply ret_inv in H as [_ ->]; exact E1|].
    apply bind_inv in H as [([] & s2 & E2 & H)|[(e & _ & X)|[_ X]]]; try discriminate. apply pure_progress in E2. subst.
    eapply from_trans; eauto.
  - cbn [counter] in H. apply bind_inv in H as [([stop acc'] & s1 & E1 & H)|[(e & _ & X)|[_ X]]]; try discriminate.
    apply int_step in E1. cbn [fst snd] in H. destruct stop; [apply ret_inv in H as [_ ->]; exact E1|].
    eapply from_trans; eauto.
Qed.
Theorem int_list fuel k reqs f m each d s v s' :
  p_type fuel (TList m (Elem (TUInt k) None reqs) each) f d s = (Ok v, s') ->
  exists t chunks, str s' = str s ++ [EvList t] /\ parsed t = map (fun c => VInt (be c)) chunks
    /\ sin s = concat chunks ++ sin s' /\ Forall (fun c => length c = k) chunks.
Proof.
  intros H. cbn [p_type] in H.
  apply bind_inv in H as [([] & s1 & E1 & H)|[(e & _ & X)|[_ X]]]; try discriminate.
  assert (S1 : str s1 = str s /\ sin s1 = sin s) by (destruct d; cbv in E1; inversion E1; auto). destruct S1 as [S1 S2].
  unfold wrap in H.
  match type of H with (match ?m ?st with _ => _ end) = _ => destruct (m st) as [r2 s2] eqn:E2 end.
  inversion H; subst r2 s'. clear H. cbn [sw sin str].
  apply bind_inv in E2 as [(l & s3 & E2 & H)|[(e & _ & X)|[_ X]]]; try discriminate.
  assert (s2 = s3).
  { destruct d as [x|]; [|apply ret_inv in H as [_ ->]; reflexivity].
    apply bind_inv in H as [(w & s4 & E4 & H)|[(e & _ & X)|[_ X]]]; try discriminate.
    apply gets_inv in E4 as [_ ->]. destruct (get _ _); [apply ret_inv in H as [_ ->]; reflexivity|discriminate]. }
  subst s3.
  assert (HF : from_input k {| sw := sw s1; sin := sin s1; str := [] |} s2).
  { destruct m as [n| | | |].
    - apply bind_inv in E2 as [(c & s4 & E4 & E2)|[(e & _ & X)|[_ X]]]; try discriminate. apply pure_eval in E4. subst s4.
      exact (proj2 (int_loops _ _ _ _ _ _ _ _) _ _ _ _ E2).
    - exact (proj1 (int_loops _ _ _ _ _ _ _ _) _ _ _ _ _ E2).
    - exact (proj1 (int_loops _ _ _ _ _ _ _ _) _ _ _ _ _ E2).
    - exact (proj1 (int_loops _ _ _ _ _ _ _ _) _ _ _ _ _ E2).
    - exact (proj1 (int_loops _ _ _ _ _ _ _ _) _ _ _ _ _ E2). }
  destruct HF as (t & chunks & A & B & C & D). cbn in A, C. exists t, chunks. rewrite S1, A. rewrite <- S2. auto.
Qed.

(** ** More iterations allowed do not change a result *)
Definition mono {A} (m m' : M A) : Prop := forall s r s', m s = (r, s') -> r <> Div -> m' s = (r, s').
Lemma mono_refl A (m : M A) : mono m m. Proof. intros s r s' H _. exact H. Qed.
Lemma mono_bind A B (m m' : M A) (k k' : A -> M B) : mono m m' -> (forall a, mono (k a) (k' a)) -> mono (bind m k) (bind m' k').
Proof.
  intros Hm Hk s r s' H Hr. apply bind_inv in H as [(a & s1 & E1 & E2)|[(e & E1 & ->)|[E1 ->]]]; unfold bind.
  - rewrite (Hm _ _ _ E1) by discriminate. apply Hk; assumption.
  - rewrite (Hm _ _ _ E1) by discriminate. reflexivity.
  - congruence.
Qed.
Lemma mono_try A (m m' : M A) h h' : mono m m' -> (forall e, mono (h e) (h' e)) -> mono (try_ m h) (try_ m' h').
Proof.
  intros Hm Hh s r s' H Hr. unfold try_ in *. destruct (m s) as [[a|e|] s1] eqn:E.
  - rewrite (Hm _ _ _ E) by discriminate. exact H.
  - rewrite (Hm _ _ _ E) by discriminate. apply Hh; assumption.
  - inversion H; subst. congruence.
Qed.
Lemma mono_wrap A c (m m' : M A) : mono m m' -> mono (wrap c m) (wrap c m').
Proof.
  intros Hm s r s' H Hr. unfold wrap in *. destruct (m _) as [r1 s1] eqn:E. inversion H; subst. rewrite (Hm _ _ _ E Hr). reflexivity.
Qed.
Lemma mono_counter n b b' acc : (forall a, mono (b a) (b' a)) -> mono (counter n b acc) (counter n b' acc).
Proof.
  intros Hb. revert acc. induction n as [|n IH]; intros acc; cbn [counter]; [apply mono_refl|]. apply mono_bind; [apply Hb|].
  intros [x l]. cbn. destruct x; [apply mono_refl|apply IH].
Qed.
Lemma mono_foreach n n' eod b b' acc : n <= n' -> (forall a, mono (b a) (b' a)) -> mono (foreach n eod b acc) (foreach n' eod b' acc).
Proof.
  intros Hn Hb. revert n' Hn acc. induction n as [|n IH]; intros n' Hn acc; cbn [foreach].
  - intros s r s' H Hr. inversion H; subst. congruence.
  - destruct n' as [|n']; [lia|]. cbn [foreach]. apply mono_bind; [apply mono_refl|]. intros i. destruct (_ && _); [apply mono_refl|].
    apply mono_bind; [apply Hb|]. intros [x l]. cbn. destruct x; [apply mono_refl|]. apply mono_bind; [apply mono_refl|]. intros _. apply IH. lia.
Qed.
Lemma all_mono n n' : n <= n' ->
  (forall u, mono (p_unit n u) (p_unit n' u))
  /\ (forall is, mono (p_items n is) (p_items n' is))
  /\ (forall i, mono (p_item n i) (p_item n' i))
  /\ (forall cs v d d', mono d d' -> mono (p_cases n cs v d) (p_cases n' cs v d'))
  /\ (forall d, mono (p_dflt n d) (p_dflt n' d))
  /\ (forall f, mono (p_field n f) (p_field n' f))
  /\ (forall t id d, mono (p_type n t id d) (p_type n' t id d))
  /\ (forall el id m each d acc, mono (p_elem n el id m each d acc) (p_elem n' el id m each d acc)).
Proof.
  intros Hn. apply syntax_ind.
  - intros init size its IH reqs done error finally. cbn [p_unit]. unfold stages. apply mono_bind; [|intros; apply mono_refl].
    apply mono_try; [|intros; apply mono_refl]. apply mono_bind; [apply mono_refl|intros _].
    destruct size; cbn [limited].
    + apply mono_bind; [apply mono_refl|intros k]. apply mono_bind; [apply mono_refl|intros i]. apply mono_bind; [apply mono_refl|intros _].
      apply mono_bind; [apply mono_bind; [exact IH|intros; apply mono_refl]|intros; apply mono_refl].
    + apply mono_bind; [exact IH|intros; apply mono_refl].
  - apply mono_refl.
  - intros i IHi r IHr. cbn [p_items]. apply mono_bind; [exact IHi|intros; exact IHr].
  - intros f IH. exact IH.
  - intros c a IHa b IHb. cbn [p_item]. apply mono_bind; [apply mono_refl|]. intros [|]; assumption.
  - intros e cs IHc d IHd. cbn [p_item]. apply mono_bind; [apply mono_refl|]. intros v. apply IHc. exact IHd.
  - intros v d d' Hd. exact Hd.
  - intros vs p IHp r IHr v d d' Hd. cbn [p_cases]. apply mono_bind; [apply mono_refl|]. intros [|]; auto.
  - apply mono_refl.
  - intros p IH. exact IH.
  - intros id anon cond t IHt conv reqs hook ehook. cbn [p_field].
    match goal with |- mono (match ehook with None => match cond with None => ?b | _ => _ end | _ => _ end)
                            (match ehook with None => match cond with None => ?b' | _ => _ end | _ => _ end) => assert (Hb : mono b b') end.
    { apply mono_bind; [apply IHt|intros; apply mono_refl]. }
    assert (Hc : forall b b' : M unit, mono b b' -> mono match cond with None => b | Some c => do b0 <- eval c VVoid; if b0 then b else ret tt end
       match cond with None => b' | Some c => do b0 <- eval c VVoid; if b0 then b' else ret tt end).
    { intros b b' H. destruct cond; [|exact H]. apply mono_bind; [apply mono_refl|]. intros [|]; [exact H|apply mono_refl]. }
    destruct ehook; [|apply Hc, Hb]. apply mono_try; [apply Hc, Hb|intros; apply mono_refl].
  - intros; apply mono_refl.
  - intros; apply mono_refl.
  - intros; apply mono_refl.
  - intros; apply mono_refl.
  - intros; apply mono_refl.
  - intros u IH id d. cbn [p_type]. apply mono_bind; [apply mono_refl|intros w]. apply mono_bind; [apply mono_refl|intros _].
    intros s r s' H Hr. destruct (wrap EvSub (p_unit n u) s) as [r1 s1] eqn:E.
    destruct r1; [| |inversion H; subst; congruence]; rewrite (mono_wrap _ _ _ _ IH _ _ _ E) by discriminate; exact H.
  - intros m el IH each id d. cbn [p_type]. apply mono_bind; [apply mono_refl|intros _]. apply mono_wrap.
    apply mono_bind; [|intros; apply mono_refl].
    destruct m; try (apply mono_foreach; [exact Hn|intros; apply IH]). apply mono_bind; [apply mono_refl|]. intros k. apply mono_counter. intros. apply IH.
  - intros t IH conv reqs id m each d acc. cbn [p_elem]. apply mono_bind; [apply IH|intros; apply mono_refl].
Qed.

(** ** Loops end *)
Definition term {A} (n : nat) (m : M A) : Prop :=
  forall s r s', length (sin s) < n -> m s = (r, s') -> r <> Div /\ length (sin s') <= length (sin s).
Lemma term_bind A B n (m : M A) (k : A -> M B) : term n m -> (forall a, term n (k a)) -> term n (bind m k).
Proof.
  intros Hm Hk s r s' Hn H. apply bind_inv in H as [(a & s1 & E1 & E2)|[(e & E1 & ->)|[E1 ->]]]; apply Hm in E1 as [T1 T2]; auto.
  - apply Hk in E2 as [T3 T4]; [|lia]. split; [exact T3|lia].
  - split; [discriminate|exact T2].
Qed.
(** never [Div], and the input is as before *)
Definition safe {A} (m : M A) : Prop := forall s r s', m s = (r, s') -> r <> Div /\ sin s' = sin s.
Lemma safe_term A n (m : M A) : safe m -> term n m.
Proof. intros H s r s' _ E. apply H in E as [E1 E2]. rewrite E2. auto. Qed.
Lemma safe_bind A B (m : M A) (k : A -> M B) : safe m -> (forall a, safe (k a)) -> safe (bind m k).
Proof.
  intros Hm Hk s r s' H. apply bind_inv in H as [(a & s1 & E1 & E2)|[(e & E1 & ->)|[E1 ->]]]; apply Hm in E1 as [T1 T2]; auto.
  - apply Hk in E2 as [T3 T4]. split; [exact T3|congruence].
  - split; [discriminate|exact T2].
Qed.
Lemma safe_ret A (a : A) : safe (ret a). Proof. intros s r s' H. apply ret_inv in H as [-> ->]. split; [discriminate|reflexivity]. Qed.
Lemma safe_throw A e : safe (@throw A e). Proof. intros s r s' H. apply throw_inv in H as [-> ->]. split; [discriminate|reflexivity]. Qed.
Lemma safe_gets A (f : st -> A) : safe (gets f). Proof. intros s r s' H. apply gets_inv in H as [-> ->]. split; [discriminate|reflexivity]. Qed.
Lemma safe_eval A (e : expr A) v : safe (eval e v).
Proof. intros s r s' H. apply eval_inv in H as [-> [(a & _ & ->)|(x & _ & ->)]]; (split; [discriminate|reflexivity]). Qed.
Lemma safe_put w : safe (put w). Proof. intros s r s' H. inversion H. split; [discriminate|reflexivity]. Qed.
Lemma safe_requires l v : safe (requires l v).
Proof. induction l as [|q l IH]; cbn [requires]; [apply safe_ret|]. apply safe_bind; [apply safe_eval|]. intros [|]; [exact IH|apply safe_throw]. Qed.
Lemma safe_convert c v : safe (convert c v). Proof. destruct c; [apply safe_eval|apply safe_ret]. Qed.
Lemma safe_matches v vs : safe (matches val_eqb v vs).
Proof. induction vs as [|q l IH]; cbn [matches]; [apply safe_ret|]. apply safe_bind; [apply safe_eval|]. intros x. destruct (val_eqb v x); [apply safe_ret|exact IH]. Qed.
Lemma safe_callc ev (h : world -> world * option err) : safe (do x <- call ev h; check x).
Proof. intros s r s' H. apply callc_inv in H as [-> ->]. split; [destruct (snd _); discriminate|reflexivity]. Qed.
Lemma safe_set x v : safe (set_self x v). Proof. intros s r s' H. apply set_self_inv in H as [-> ->]. split; [discriminate|reflexivity]. Qed.
Lemma safe_stored d v : safe (stored d v). Proof. destruct d; [apply safe_set|apply safe_ret]. Qed.
Lemma safe_progress i : safe (progress i).
Proof. apply safe_bind; [apply safe_gets|]. intros j. destruct (_ && _); [apply safe_throw|apply safe_ret]. Qed.
Lemma safe_push d v acc : safe (push d v acc).
Proof.
  destruct d as [x|]; [|apply safe_ret]. cbn [push]. apply safe_bind; [apply safe_gets|]. intros w.
  destruct (get (self w) x) as [[| | |l|]|]; try apply safe_throw. apply safe_bind; [apply safe_set|]. intros _. apply safe_ret.
Qed.
Lemma safe_new_item f m each reqs d v acc : safe (new_item f m each reqs d v acc).
Proof.
  assert (Pr : forall b, safe (run_each f each v b)).
  { intros b s0 r0 s0' H. apply run_each_cases in H as [(-> & -> & _)|(h & _ & _ & -> & ->)]; (split; [|reflexivity]); [discriminate|destruct (snd _); discriminate]. }
  assert (Pu : forall b, safe (push_elem d v b acc)) by (intros [|]; [apply safe_ret|apply safe_push]).
  destruct m; cbn [new_item];
    repeat first [ apply safe_bind; [first [apply safe_eval | apply safe_requires | apply Pr | apply Pu]|intros]
                 | apply safe_ret | match goal with |- safe (if ?x then _ else _) => destruct x end ].
Qed.
Lemma term_take n k : term n (take k).
Proof.
  intros s r s' _ H. apply take_inv in H as [(_ & -> & ->)|(_ & -> & ->)]; (split; [discriminate|]); cbn [sin]; [|lia].
  rewrite skipn_length. lia.
Qed.
Lemma term_counter N n body acc : (forall a, term N (body a)) -> term N (counter n body acc).
Proof.
  intros Hb. revert acc. induction n as [|n IH]; intros acc; cbn [counter]; [apply safe_term, safe_ret|].
  apply term_bind; [apply Hb|]. intros [x l]. cbn. destruct x; [apply safe_term, safe_ret|apply IH].
Qed.
Lemma term_foreach N n (eod : bool) body acc s r s' : (forall a, term N (body a)) ->
  (eod = true \/ forall a s0 x s1, body a s0 = (Ok x, s1) -> length (sin s1) < length (sin s0)) ->
  length (sin s) < n -> length (sin s) < N -> foreach n eod body acc s = (r, s') -> r <> Div /\ length (sin s') <= length (sin s).
Proof.
  intros Hb Hd. revert acc s. induction n as [|n IH]; intros acc s Hn HN H; [lia|]. cbn [foreach] in H.
  apply bind_inv in H as [(i & s1 & E1 & H)|[(e & E1 & ->)|[E1 ->]]]; try (cbv in E1; discriminate).
  apply gets_inv in E1 as [Ei ->]. inversion Ei; subst i.
  destruct (eod && (length (sin s) =? 0)) eqn:Ec; [apply ret_inv in H as [-> ->]; split; [discriminate|lia]|].
  apply bind_inv in H as [([stop l] & s1 & E1 & H)|[(e & E1 & ->)|[E1 ->]]].
  2: { apply Hb in E1 as [_ E1]; [|exact HN]. split; [discriminate|exact E1]. }
  2: { apply Hb in E1 as [E1 _]; [|exact HN]. congruence. }
  pose proof (Hb _ _ _ _ HN E1) as [_ L1]. cbn [fst snd] in H.
  destruct stop; [apply ret_inv in H as [-> ->]; split; [discriminate|exact L1]|].
  apply bind_inv in H as [([] & s2 & E2 & H)|[(e & E2 & ->)|[E2 ->]]].
  2: { apply safe_progress in E2 as [_ E2]. rewrite E2. split; [discriminate|exact L1]. }
  2: { apply safe_progress in E2 as [E2 _]. congruence. }
  assert (L2 : length (sin s1) < length (sin s)).
  { destruct Hd as [-> |Hd]; [|exact (Hd _ _ _ _ E1)].
    cbn in Ec. apply Nat.eqb_neq in Ec. destruct (Nat.eq_dec (length (sin s1)) (length (sin s))) as [Heq|]; [|lia]. exfalso.
    unfold progress in E2. apply bind_inv in E2 as [(j & s3 & E3 & E2)|[(e & _ & X)|[_ X]]]; try discriminate.
    apply gets_inv in E3 as [E3 ->]. inversion E3; subst j. rewrite Heq, Nat.eqb_refl in E2.
    destruct (Nat.eqb_spec (length (sin s)) 0); [contradiction|]. cbn in E2. discriminate. }
  apply pure_progress in E2. subst s2. apply IH in H as [T1 T2]; [|lia|lia]. split; [exact T1|lia].
Qed.
Lemma eats_less fuel el f m each d a s x s1 : eats el -> p_elem fuel el f m each d a s = (Ok x, s1) -> length (sin s1) < length (sin s).
Proof.
  intros He H. destruct el as [t conv reqs]. cbn [p_elem] in H.
  apply bind_inv in H as [(raw & s2 & E1 & H)|[(e & _ & X)|[_ X]]]; try discriminate.
  apply bind_inv in H as [(v & s3 & E2 & H)|[(e & _ & X)|[_ X]]]; try discriminate.
  apply pure_convert in E2. subst s3. apply safe_new_item in H as [_ H]. rewrite H. clear H.
  destruct t as [|[|k]| | |[|b l]| |]; cbn in He; try contradiction; cbn [p_type] in E1.
  - apply bind_inv in E1 as [(b & s3 & E1 & E2)|[(e & _ & X)|[_ X]]]; try discriminate.
    apply ret_inv in E2 as [_ ->]. apply take_inv in E1 as [(L & _ & ->)|(_ & X & _)]; [|discriminate]. cbn [sin]. rewrite skipn_length. lia.
  - apply bind_inv in E1 as [(b' & s3 & E1 & E2)|[(e & _ & X)|[_ X]]]; try discriminate.
    apply take_inv in E1 as [(L & _ & ->)|(_ & X & _)]; [|discriminate].
    destruct (list_nat_eqb _ _); [|apply throw_inv in E2 as [X _]; discriminate]. apply ret_inv in E2 as [_ ->]. cbn [sin length] in *. rewrite skipn_length. lia.
Qed.
Ltac ts := apply safe_term; first [apply safe_ret | apply safe_throw | apply safe_gets | apply safe_eval | apply safe_put | apply safe_requires
   | apply safe_convert | apply safe_matches | apply safe_callc | apply safe_set | apply safe_stored | apply safe_progress | apply safe_new_item].
Ltac tb := apply term_bind; [|intros].
Lemma all_term n :
  (forall u, ends_u u -> term n (p_unit n u))
  /\ (forall is, ends_is is -> term n (p_items n is))
  /\ (forall i, ends_i i -> term n (p_item n i))
  /\ (forall cs, ends_cs cs -> forall v d, term n d -> term n (p_cases n cs v d))
  /\ (forall d, ends_d d -> term n (p_dflt n d))
  /\ (forall f, ends_f f -> term n (p_field n f))
  /\ (forall t, ends_t t -> forall id d, term n (p_type n t id d))
  /\ (forall el, ends_e el -> forall id m each d acc, term n (p_elem n el id m each d acc)).
Proof.
  assert (TT : forall A (m : M A) h, term n m -> (forall e, term n (h e)) -> term n (try_ m h)).
  { intros A m h Hm Hh s r s' Hn H. unfold try_ in H. destruct (m s) as [[a|e|] s1] eqn:E; apply Hm in E as [T1 T2]; auto.
    - inversion H; subst. split; [discriminate|exact T2].
    - apply Hh in H as [T3 T4]; [|lia]. split; [exact T3|lia].
    - congruence. }
  assert (TW : forall A c (m : M A), term n m -> term n (wrap c m)).
  { intros A c m Hm s r s' Hn H. unfold wrap in H. destruct (m _) as [r1 s1] eqn:E. inversion H; subst. apply Hm in E as [T1 T2]; auto. }
  apply syntax_ind.
  - intros init size its IH reqs done error finally He. cbn [p_unit]. unfold stages. tb; [|ts].
    apply TT; [|intros; tb; [ts|]; tb; ts]. tb; [ts|].
    assert (Hi : term n (p_items n its;; requires reqs VVoid;; (do r <- call EvDone done; check r))).
    { tb; [apply IH; exact He|]. tb; [ts|]. ts. }
    destruct size as [e|]; cbn [limited]; [|exact Hi]. tb; [ts|].
    intros s r s' Hn H. apply bind_inv in H as [(i & s1 & E1 & H)|[(e1 & E1 & ->)|[E1 ->]]]; try (cbv in E1; discriminate).
    apply gets_inv in E1 as [Ei ->]. inversion Ei; subst i.
    apply bind_inv in H as [([] & s1 & E1 & H)|[(e1 & E1 & ->)|[E1 ->]]]; try (cbv in E1; discriminate).
    assert (L1 : length (sin s1) <= length (sin s)) by (inversion E1; cbn [sin]; rewrite firstn_length; lia).
    apply bind_inv in H as [([] & s2 & E2 & H)|[(e1 & E2 & ->)|[E2 ->]]]; apply Hi in E2 as [T1 T2]; try lia.
    + apply bind_inv in H as [(j & s3 & E3 & H)|[(e1 & E3 & ->)|[E3 ->]]]; try (cbv in E3; discriminate).
      apply gets_inv in E3 as [_ ->]. destruct (_ || _).
      * apply throw_inv in H as [-> ->]. split; [discriminate|lia].
      * inversion H. cbn [sin]. split; [discriminate|]. rewrite skipn_length. lia.
    + split; [discriminate|lia].
    + congruence.
  - intros _. ts.
  - intros i IHi r IHr [H1 H2]. cbn [p_items]. tb; auto.
  - intros f IH H. apply IH. exact H.
  - intros c a IHa b IHb [H1 H2]. cbn [p_item]. tb; [ts|]. destruct a0; auto.
  - intros e cs IHc d IHd [H1 H2]. cbn [p_item]. tb; [ts|]. apply IHc; auto.
  - intros _ v d Hd. exact Hd.
  - intros vs p IHp r IHr [H1 H2] v d Hd. cbn [p_cases]. tb; [ts|]. destruct a; auto.
  - intros _. cbn [p_dflt]. ts.
  - intros p IH H. apply IH. exact H.
  - intros id anon cond t IHt conv reqs hook ehook He. cbn [p_field].
    match goal with |- term n (match ehook with None => match cond with None => ?b | _ => _ end | _ => _ end) => assert (Hb : term n b) end.
    { tb; [apply IHt; exact He|]. tb; [ts|]. tb; [destruct anon; [ts|]; destruct t; ts|]. tb; [ts|]. destruct hook; ts. }
    match goal with |- term n (match ehook with None => ?b | _ => _ end) => assert (Hc : term n b) end.
    { destruct cond; [|exact Hb]. tb; [ts|]. destruct a; [exact Hb|ts]. }
    destruct ehook; [|exact Hc]. apply TT; [exact Hc|]. intros e'. tb; ts.
  - intros; ts.
  - intros; cbn [p_type]. tb; [apply term_take|ts].
  - intros; cbn [p_type]. tb; [ts|]. tb; [apply term_take|ts].
  - intros _ id d. cbn [p_type]. tb; [ts|]. tb; [|ts]. intros s r s' _ H. inversion H. cbn. split; [discriminate|lia].
  - intros; cbn [p_type]. tb; [apply term_take|]. destruct (list_nat_eqb _ _); ts.
  - intros u IH He id d. cbn [p_type]. tb; [ts|]. tb; [ts|]. intros s r s' Hn H.
    destruct (wrap EvSub (p_unit n u) s) as [r1 s1] eqn:E. apply (TW _ _ _ (IH He)) in E as [T1 T2]; [|exact Hn].
    assert (Hb : safe (put {| self := self a; glob := glob (sw s1) |};; stored d (VUnit (self (sw s1))))).
    { apply safe_bind; [apply safe_put|]. intros _. apply safe_stored. }
    destruct r1; [| |congruence].
    + destruct (safe_bind _ _ _ _ Hb (fun _ => safe_ret _ (VUnit (self (sw s1)))) _ _ _ H) as [X Y]. rewrite Y. auto.
    + destruct (safe_bind _ _ _ _ Hb (fun _ => safe_throw val e) _ _ _ H) as [X Y]. rewrite Y. auto.
  - intros m el IH each [Hm He] id d. cbn [p_type]. tb; [ts|]. apply TW.
    assert (HB : forall acc, term n (p_elem n el id m each d acc)) by (intros; apply IH; exact He). tb.
    + destruct m as [k| |c|c|c]; cbn in Hm.
      * tb; [ts|]. apply term_counter. exact HB.
      * intros s r s' Hn H. eapply term_foreach; [exact HB|left; reflexivity|exact Hn|exact Hn|exact H].
      * intros s r s' Hn H. eapply term_foreach; [exact HB| |exact Hn|exact Hn|exact H]. right. intros. eapply eats_less; eauto.
      * intros s r s' Hn H. eapply term_foreach; [exact HB| |exact Hn|exact Hn|exact H]. right. intros. eapply eats_less; eauto.
      * intros s r s' Hn H. eapply term_foreach; [exact HB| |exact Hn|exact Hn|exact H]. right. intros. eapply eats_less; eauto.
    + destruct d; [|ts]. tb; [ts|]. destruct (get _ _); ts.
  - intros t IH conv reqs He id m each d acc. cbn [p_elem]. tb; [apply IH; exact He|]. tb; [ts|]. ts.
Qed.
