(** Proofs: nested units, and what the hooks of fields see *)
From Coq Require Import List Bool Arith Lia.
From Verif Require Import UlfModel UlfSpec UlfProofs.
Import ListNotations.

Definition u_error (u : unit_) : hookE := match u with Unit _ _ _ _ _ e _ => e end.
Definition u_finally (u : unit_) : hook0 := match u with Unit _ _ _ _ _ _ f => f end.
Definition u_done (u : unit_) : hook0 := match u with Unit _ _ _ _ d _ _ => d end.
Definition u_items (u : unit_) : items := match u with Unit _ _ i _ _ _ _ => i end.
Definition u_reqs (u : unit_) : list (expr bool) := match u with Unit _ _ _ r _ _ _ => r end.
Definition u_size (u : unit_) : option (expr nat) := match u with Unit _ s _ _ _ _ _ => s end.

Ltac eq_ := apply evs_q; [apply fine_nil|qt].
Ltac eb := apply evs_b; [apply fine_app| |intros].

Lemma inner_ok init size (m : M unit) reqs done :
  evs fine m ->
  em ((do r <- call EvInit init; check r);; limited size (m;; (requires reqs VVoid;; (do r <- call EvDone done; check r)))) inner_ends.
Proof.
  intros Hm.
  set (P := fun (r : rs unit) (t : list event) => exists mid, fine mid /\
     ((r = Div /\ t = mid) \/ (exists wd, t = mid ++ [EvDone wd] /\ r <> Div) \/ (exists e, r = Err e /\ t = mid))).
  assert (H1 : em (m;; (requires reqs VVoid;; (do r <- call EvDone done; check r))) P).
  { intros s r s' H. apply bind_inv in H as [([] & s1 & H1 & H2)|[(e & H1 & ->)|[H1 ->]]]; destruct (Hm _ _ _ H1) as (t & F & G).
    - apply bind_inv in H2 as [([] & s2 & H2 & H3)|[(e & H2 & ->)|[H2 ->]]]; apply pure_requires in H2; subst.
      + apply callc_inv in H3 as [-> ->]. exists (t ++ [EvDone (sw s1)]). split; [cbn; rewrite F, app_assoc; reflexivity|].
        exists t. split; [exact G|]. right. left. exists (sw s1). split; [reflexivity|]. destruct (snd (done (sw s1))); discriminate.
      + exists t. split; [exact F|]. exists t. split; [exact G|]. right. right. eauto.
      + exists t. split; [exact F|]. exists t. split; [exact G|]. auto.
    - exists t. split; [exact F|]. exists t. split; [exact G|]. right. right. eauto.
    - exists t. split; [exact F|]. exists t. split; [exact G|]. auto. }
  assert (H2 : em (limited size (m;; (requires reqs VVoid;; (do r <- call EvDone done; check r)))) P).
  { destruct size as [n|]; cbn [limited]; [|exact H1]. intros s r s' H.
    apply bind_inv in H as [(k & s1 & E1 & H)|[(e & E1 & ->)|[E1 ->]]]; apply pure_eval in E1; subst s1 || subst s'.
    2: { exists []. rewrite app_nil_r. split; [reflexivity|]. exists []. split; [apply fine_nil|]. right. right. eauto. }
    2: { exists []. rewrite app_nil_r. split; [reflexivity|]. exists []. split; [apply fine_nil|]. auto. }
    apply bind_inv in H as [(i & s1 & E1 & H)|[(e & E1 & ->)|[E1 ->]]]; try (cbv in E1; discriminate).
    apply gets_inv in E1 as [_ ->].
    apply bind_inv in H as [([] & s1 & E1 & H)|[(e & E1 & ->)|[E1 ->]]]; try (cbv in E1; discriminate).
    assert (Hs : str s1 = str s) by (apply (tame_putin _ _ _ _ E1)). clear E1.
    apply bind_inv in H as [([] & s2 & E1 & H)|[(e & E1 & ->)|[E1 ->]]]; destruct (H1 _ _ _ E1) as (t & F & G); rewrite Hs in F.
    2,3: exists t; split; assumption.
    assert (Q : str s' = str s2 /\ r <> Div).
    { apply bind_inv in H as [(x & s3 & E3 & H)|[(e & E3 & ->)|[E3 ->]]]; try (cbv in E3; discriminate).
      apply gets_inv in E3 as [_ ->]. destruct (_ || _).
      - apply throw_inv in H as [-> ->]. split; [reflexivity|discriminate].
      - inversion H. split; [reflexivity|discriminate]. }
    destruct Q as [Q1 Q2]. exists t. split; [congruence|].
    destruct G as (mid & G & [[G1 _]|[(wd & G1 & _)|(e & G1 & _)]]); try discriminate.
    exists mid. split; [exact G|]. right. left. eauto. }
  intros s r s' H. apply bind_inv in H as [([] & s1 & E1 & H)|[(e & E1 & ->)|[E1 ->]]]; apply callc_inv in E1 as [E ->].
  - destruct (H2 _ _ _ H) as (t & F & mid & [G1 G2] & G3). cbn [str] in F. exists (EvInit (sw s) :: t).
    split; [rewrite F, <- app_assoc; reflexivity|]. exists (sw s), mid. refine (conj G2 (conj G1 _)).
    destruct G3 as [[-> ->]|[(wd & -> & G3)|(e & -> & ->)]]; [auto|right; left; eauto|right; right; eauto].
  - cbn [str]. exists [EvInit (sw s)]. split; [reflexivity|]. exists (sw s), []. split; [constructor|]. split; [apply calm_nil|]. right. right. eauto.
  - destruct (snd (init (sw s))); discriminate.
Qed.

Lemma all_ends :
  (forall u fuel, em (p_unit fuel u) (unit_ends (u_error u) (u_finally u)))
  /\ (forall is fuel, evs fine (p_items fuel is))
  /\ (forall i fuel, evs fine (p_item fuel i))
  /\ (forall cs fuel v d, evs fine d -> evs fine (p_cases fuel cs v d))
  /\ (forall d fuel, evs fine (p_dflt fuel d))
  /\ (forall f fuel, evs fine (p_field fuel f))
  /\ (forall t fuel id d, evs fine (p_type fuel t id d))
  /\ (forall el fuel id m each d acc, evs fine (p_elem fuel el id m each d acc)).
Proof.
  apply syntax_ind.
  - intros init size its IH reqs done error finally fuel. cbn [p_unit u_error u_finally]. apply stages_ends. apply inner_ok. apply IH.
  - intros fuel. eq_.
  - intros i IHi r IHr fuel. cbn [p_items]. eb; auto.
  - intros f IH fuel. apply IH.
  - intros c a IHa b IHb fuel. cbn [p_item]. eb; [eq_|]. destruct a0; auto.
  - intros e cs IHc d IHd fuel. cbn [p_item]. eb; [eq_|]. apply IHc. apply IHd.
  - intros fuel v d Hd. exact Hd.
  - intros vs p IHp r IHr fuel v d Hd. cbn [p_cases]. eb; [eq_|]. destruct a; auto.
  - intros fuel. cbn [p_dflt]. eq_.
  - intros p IH fuel. apply IH.
  - intros id anon cond t IHt conv reqs hook ehook fuel. cbn [p_field].
    match goal with |- evs fine (match ehook with None => match cond with None => ?b | _ => _ end | _ => _ end) => assert (Hb : evs fine b) end.
    { eb; [apply IHt|]. eb; [eq_|]. eb; [|].
      - destruct anon; [eq_|]. destruct t; eq_.
      - eb; [eq_|]. destruct hook; [|eq_]. apply evs_callc. intros w. apply fine1; [reflexivity|leaf]. }
    match goal with |- evs fine (match ehook with None => ?b | _ => _ end) => assert (Hc : evs fine b) end.
    { destruct cond; [|exact Hb]. eb; [eq_|]. destruct a; [exact Hb|eq_]. }
    destruct ehook; [|exact Hc]. apply evs_try; [apply fine_app|exact Hc|]. intros e'. eb; [|eq_].
    apply evs_callc. intros w. apply fine1; [reflexivity|leaf].
  - intros; eq_.
  - intros; cbn [p_type]. eb; eq_.
  - intros; cbn [p_type]. eb; [eq_|]. eb; eq_.
  - intros; cbn [p_type]. eb; [eq_|]. eb; eq_.
  - intros; cbn [p_type]. eb; [eq_|]. destruct (list_nat_eqb _ _); eq_.
  - intros u IH fuel id d. cbn [p_type]. eb; [eq_|]. eb; [eq_|].
    intros s r s' H. destruct (wrap EvSub (p_unit fuel u) s) as [r1 s1] eqn:E.
    assert (W : evs fine (wrap EvSub (p_unit fuel u))).
    { apply evs_wrap with (Q := fun t => life_shape t /\ Forall nice t).
      - eapply em_weaken; [apply IH|]. intros rr tt0 HH. cbn in HH. eapply unit_ends_shape; exact HH.
      - intros t [A B]. apply fine1; [reflexivity|constructor; assumption]. }
    destruct (W _ _ _ E) as (t & F & G). exists t. split; [|exact G]. rewrite <- F.
    assert (Hb : quiet (put {| self := self a; glob := glob (sw s1) |};; stored d (VUnit (self (sw s1))))).
    { apply quiet_bind; [apply quiet_put|]. intros _. apply quiet_stored. }
    destruct r1.
    + eapply quiet_bind; [exact Hb| |exact H]. intros ?. qt.
    + eapply quiet_bind; [exact Hb| |exact H]. intros ?. qt.
    + inversion H. reflexivity.
  - intros m el IH each fuel id d. cbn [p_type]. eb; [eq_|]. apply evs_wrap with (Q := fine).
    + assert (HB : forall acc, evs fine (p_elem fuel el id m each d acc)) by (intros; apply IH). eb.
      * destruct m; try (apply evs_foreach; [apply fine_nil|apply fine_app|exact HB]).
        eb; [eq_|]. apply evs_counter; [apply fine_nil|apply fine_app|exact HB].
      * destruct d; [|eq_]. eb; [eq_|]. destruct (get _ _); eq_.
    + intros t [A B]. apply fine1; [reflexivity|constructor; assumption].
  - intros t IH conv reqs fuel id m each d acc. cbn [p_elem]. eb; [apply IH|]. eb; [eq_|].
    apply evs_new_item; [apply fine_nil|apply fine_app| |]; intros w.
    + apply fine1; [reflexivity|leaf].
    + change [EvItem a0 w; EvEach id a0 w] with ([EvItem a0 w] ++ [EvEach id a0 w]). apply fine_app; (apply fine1; [reflexivity|leaf]).
Qed.

(** ** Hooks of fields *)
Definition wrapped (t : list event) : Prop := t = [] \/ (exists x, t = [EvSub x]) \/ (exists x, t = [EvList x]).
Lemma wrap_ev A c (m : M A) s r s' : wrap c m s = (r, s') -> exists x, str s' = str s ++ [c x].
Proof. unfold wrap. destruct (m _) as [r1 s1]. intros H. inversion H. cbn. eauto. Qed.
Lemma type_events fuel t id d : evs wrapped (p_type fuel t id d).
Proof.
  assert (Q : forall A (m : M A), quiet m -> evs wrapped m) by (intros; apply evs_quiet; [assumption|left; reflexivity]).
  destruct t; cbn [p_type].
  1-5: apply Q; repeat first [qt | apply quiet_bind; [qt|intros] | match goal with |- quiet (if ?x then _ else _) => destruct x end].
  - intros s r s' H. apply bind_inv in H as [(w & s1 & E1 & H)|[(e & E1 & ->)|[E1 ->]]]; try (cbv in E1; discriminate).
    apply gets_inv in E1 as [_ ->].
    apply bind_inv in H as [([] & s1 & E1 & H)|[(e & E1 & ->)|[E1 ->]]]; try (cbv in E1; discriminate).
    apply quiet_put in E1. destruct (wrap EvSub (p_unit fuel u) s1) as [r1 s2] eqn:E. destruct (wrap_ev _ _ _ _ _ _ E) as (x & F).
    exists [EvSub x]. rewrite <- E1. split; [|right; left; eauto]. rewrite <- F.
    assert (Hb : quiet (put {| self := self w; glob := glob (sw s2) |};; stored d (VUnit (self (sw s2))))).
    { apply quiet_bind; [apply quiet_put|]. intros _. apply quiet_stored. }
    destruct r1.
    + eapply quiet_bind; [exact Hb| |exact H]. intros ?. qt.
    + eapply quiet_bind; [exact Hb| |exact H]. intros ?. qt.
    + inversion H. reflexivity.
  - intros s r s' H. apply bind_inv in H as [([] & s1 & E1 & H)|[(e & E1 & ->)|[E1 ->]]]; try apply quiet_stored in E1.
    + destruct (wrap_ev _ _ _ _ _ _ H) as (x & F). exists [EvList x]. rewrite <- E1. split; [exact F|right; right; eauto].
    + exists []. rewrite app_nil_r. split; [assumption|left; reflexivity].
    + exists []. rewrite app_nil_r. split; [assumption|left; reflexivity].
Qed.

Lemma hooked_app a b : hooked (a ++ b) = hooked a ++ hooked b.
Proof. induction a as [|[] a IH]; cbn; try rewrite IH; reflexivity. Qed.
Lemma subseq_nil A (b : list A) : subseq [] b. Proof. induction b; constructor; auto. Qed.
Lemma subseq_app A (a b c d : list A) : subseq a b -> subseq c d -> subseq (a ++ c) (b ++ d).
Proof. intros H K. induction H; cbn; [exact K|apply sub_skip; assumption|apply sub_keep; assumption]. Qed.
Lemma subseq_l A (a b c : list A) : subseq a b -> subseq a (b ++ c).
Proof. intros H. rewrite <- (app_nil_r a). apply subseq_app; [exact H|apply subseq_nil]. Qed.
Lemma subseq_r A (a b c : list A) : subseq a c -> subseq a (b ++ c).
Proof. intros H. change a with ([] ++ a). apply subseq_app; [apply subseq_nil|exact H]. Qed.

(** at most one field reports an error, as the last event *)
Definition errs_last (r : rs unit) (t : list event) : Prop :=
  (forall e, In e t -> is_field_err e = false)
  \/ (exists t0 id e0 w, t = t0 ++ [EvFieldErr id e0 w] /\ (forall e, In e t0 -> is_field_err e = false) /\ exists e, r = Err e).
Definition Q (D : field -> Prop) (W : list name -> Prop) (L : list name) (r : rs unit) (t : list event) : Prop :=
  (forall id raw v w, In (EvField id raw v w) t -> exists f, D f /\ field_id f = id /\ rightly f raw v w)
  /\ (forall id e w, In (EvFieldErr id e w) t -> exists f, D f /\ field_id f = id /\ field_ehook f <> None)
  /\ subseq (hooked t) L /\ (r = Ok tt -> W (hooked t)) /\ errs_last r t /\ (r = Ok tt -> forall e, In e t -> is_field_err e = false).

Lemma Q_weaken (D D' : field -> Prop) (W W' : list name -> Prop) L L' r t :
  (forall f, D f -> D' f) -> (forall l, W l -> W' l) -> (forall l, subseq l L -> subseq l L') -> Q D W L r t -> Q D' W' L' r t.
Proof.
  intros HD HW HL (A & B & C & E & F & G). refine (conj _ (conj _ (conj _ (conj _ (conj F G))))).
  - intros id raw v w HI. destruct (A _ _ _ _ HI) as (f & X & Y). eauto.
  - intros id e w HI. destruct (B _ _ _ HI) as (f & X & Y). eauto.
  - auto.
  - auto.
Qed.
Lemma Q_nil (D : field -> Prop) (W : list name -> Prop) L r : (r = Ok tt -> W []) -> Q D W L r [].
Proof. intros H. refine (conj _ (conj _ (conj _ (conj H (conj _ _))))); cbn; try tauto. apply subseq_nil. left. cbn. tauto. Qed.
Lemma Q_app (D1 D2 D : field -> Prop) (W1 W2 W : list name -> Prop) L1 L2 r t1 t2 :
  (forall f, D1 f -> D f) -> (forall f, D2 f -> D f) -> (forall a b, W1 a -> W2 b -> W (a ++ b)) ->
  Q D1 W1 L1 (Ok tt) t1 -> Q D2 W2 L2 r t2 -> Q D W (L1 ++ L2) r (t1 ++ t2).
Proof.
  intros HD1 HD2 HW (A & B & C & E & F & G) (A' & B' & C' & E' & F' & G').
  refine (conj _ (conj _ (conj _ (conj _ (conj _ _))))).
  - intros id raw v w HI. apply in_app_or in HI as [HI|HI]; [destruct (A _ _ _ _ HI) as (f & X & Y)|destruct (A' _ _ _ _ HI) as (f & X & Y)]; eauto.
  - intros id e w HI. apply in_app_or in HI as [HI|HI]; [destruct (B _ _ _ HI) as (f & X & Y)|destruct (B' _ _ _ HI) as (f & X & Y)]; eauto.
  - rewrite hooked_app. apply subseq_app; assumption.
  - intros ->. rewrite hooked_app. auto.
  - destruct F' as [F'|(t0 & id & e0 & w & -> & F' & X)].
    + left. intros e HI. apply in_app_or in HI as [HI|HI]; auto.
    + right. exists (t1 ++ t0), id, e0, w. split; [apply app_assoc|]. split; [|exact X]. intros e HI. apply in_app_or in HI as [HI|HI]; auto.
  - intros -> e HI. apply in_app_or in HI as [HI|HI]; auto.
Qed.

Lemma wrapped_Q D (W : list name -> Prop) L r t : wrapped t -> (r = Ok tt -> W []) -> Q D W L r t.
Proof.
  intros [-> |[[x ->]|[x ->]]] HW; [apply Q_nil; exact HW|..].
  all: refine (conj _ (conj _ (conj _ (conj HW (conj _ _))))); cbn.
  1,6: intros ? ? ? ? [H|[]]; discriminate.
  1,5: intros ? ? ? [H|[]]; discriminate.
  1,4: apply subseq_nil.
  1,3: left; intros e [<-|[]]; reflexivity.
  all: intros _ e [<-|[]]; reflexivity.
Qed.

Lemma field_Q f fuel : em (p_field fuel f) (Q (eq f) (way1 (IField f)) (written1 (IField f))).
Proof.
  destruct f as [id anon cond t conv reqs hook ehook]. cbn [p_field].
  set (f := Field id anon cond t conv reqs hook ehook).
  match goal with |- em (match ehook with None => match cond with None => ?b | _ => _ end | _ => _ end) _ => set (body := b) end.
  set (W := fun l => match hook with None => l = [] | Some _ => l = [id] end).
  set (Z := fun (r : rs unit) (t : list event) => Q (eq f) W [id] r t /\ forall e, In e t -> is_field_err e = false).
  assert (Hb : em body Z).
  { intros s r s' H. unfold body in H.
    apply bind_inv in H as [(raw & s1 & E1 & H)|[(e & E1 & ->)|[E1 ->]]]; destruct (type_events _ _ _ _ _ _ _ E1) as (t1 & F1 & G1).
    2,3: exists t1; split; [exact F1|]; split;
      [apply wrapped_Q; [exact G1|discriminate]|destruct G1 as [-> |[[x ->]|[x ->]]]; cbn; intuition; subst; reflexivity].
    assert (G1' : forall e, In e t1 -> is_field_err e = false) by (destruct G1 as [-> |[[x ->]|[x ->]]]; cbn; intuition; subst; reflexivity).
    assert (Hne : forall r : rs unit, r <> Ok tt -> Z r t1) by (intros r0 Hr; split; [apply wrapped_Q; [exact G1|congruence]|exact G1']).
    apply bind_inv in H as [(v & s2 & E2 & H)|[(e & E2 & ->)|[E2 ->]]]; pose proof (pure_convert _ _ _ _ _ E2); subst.
    2,3: exists t1; split; [exact F1|apply Hne; discriminate].
    apply convert_ok in E2.
    apply bind_inv in H as [([] & s3 & E3 & H)|[(e & E3 & ->)|[E3 ->]]].
    2,3: exfalso; destruct anon; [cbv in E3; discriminate|]; destruct t; cbv in E3; discriminate.
    assert (W3 : str s3 = str s1 /\ (keeps_value f -> sw s3 = storing id v (sw s1)) /\ (~ keeps_value f -> sw s3 = sw s1)).
    { cbn. destruct anon; [apply ret_inv in E3 as [_ ->]; intuition discriminate|].
      destruct t; try (apply set_self_inv in E3 as [_ ->]; cbn; split; [reflexivity|]; split; [reflexivity|]; intros X; exfalso; apply X; split; [reflexivity|discriminate]).
      apply ret_inv in E3 as [_ ->]. split; [reflexivity|]. split; [intros [_ X]; congruence|reflexivity]. }
    clear E3. destruct W3 as (S3 & K1 & K2).
    apply bind_inv in H as [([] & s4 & E4 & H)|[(e & E4 & ->)|[E4 ->]]]; pose proof (pure_requires _ _ _ _ _ E4); subst.
    2,3: exists t1; split; [congruence|apply Hne; discriminate].
    apply requires_ok in E4. unfold Z, W. destruct hook as [h|] eqn:Eh.
    - apply callc_inv in H as [-> ->]. cbn [str]. exists (t1 ++ [EvField id raw v (sw s3)]).
      split; [rewrite S3, F1, app_assoc; reflexivity|].
      assert (HQ : Q (eq f) (fun l => l = [id]) [id] (match snd (h v (sw s3)) with None => Ok tt | Some e => Err e end) [EvField id raw v (sw s3)]).
      { refine (conj _ (conj _ (conj _ (conj _ (conj _ _))))); cbn.
        - intros id' raw' v' w' [HI|[]]. inversion HI; subst. exists f. split; [reflexivity|]. split; [reflexivity|].
          split; [discriminate|]. split; [|exact E4]. exists (sw s1). split; [exact E2|split; assumption].
        - intros ? ? ? [HI|[]]. discriminate.
        - apply sub_keep, sub_nil.
        - reflexivity.
        - left. intros e [<-|[]]. reflexivity.
        - intros _ e [<-|[]]. reflexivity. }
      split.
      + apply (Q_app (eq f) (eq f) (eq f) (fun l => l = []) (fun l => l = [id]) (fun l => l = [id]) [] [id]); auto.
        * intros a b -> ->. reflexivity.
        * apply wrapped_Q; auto.
      + intros e HI. apply in_app_or in HI as [HI|[<-|[]]]; [auto|reflexivity].
    - apply ret_inv in H as [-> ->]. exists t1. split; [congruence|]. split; [|exact G1']. apply wrapped_Q; auto. }
  assert (HW : forall l, W l -> way1 (IField f) l).
  { unfold W, f. intros l. destruct hook; intros ->; constructor. }
  set (Z2 := fun (r : rs unit) (t : list event) => Q (eq f) (way1 (IField f)) [id] r t /\ forall e, In e t -> is_field_err e = false).
  assert (Hb2 : em body Z2).
  { eapply em_weaken; [exact Hb|]. intros r t0 [X Y]. split; [|exact Y]. eapply Q_weaken; [..|exact X]; auto. }
  match goal with |- em (match ehook with None => ?b | _ => _ end) _ => set (cbody := b) end.
  assert (Hc : em cbody Z2).
  { unfold cbody, f in *. destruct cond as [c|]; [|exact Hb2]. intros s r s' H.
    assert (N : forall r, Z2 r []) by (intros r0; split; [apply Q_nil; intros _; constructor|intros e []]).
    apply bind_inv in H as [(b & s1 & E1 & H)|[(e & E1 & ->)|[E1 ->]]]; pose proof (pure_eval _ _ _ _ _ _ E1); subst.
    2,3: exists []; rewrite app_nil_r; split; [reflexivity|apply N].
    destruct b; [apply Hb2; exact H|]. apply ret_inv in H as [-> ->]. exists []. rewrite app_nil_r. split; [reflexivity|apply N]. }
  clearbody cbody. change (written1 (IField f)) with [id].
  destruct ehook as [h|] eqn:Ee.
  2: { eapply em_weaken; [exact Hc|]. intros r t0 [X _]. exact X. }
  intros s r s' H. unfold try_ in H. destruct (cbody s) as [[[]|e|] s1] eqn:E; destruct (Hc _ _ _ E) as (t1 & F & X & Y).
  - inversion H; subst. eauto.
  - assert (exists e', r = Err e' /\ str s' = str s1 ++ [EvFieldErr id e (sw s1)]) as (e' & -> & F2).
    { apply bind_inv in H as [([] & s2 & E2 & H)|[(e2 & E2 & ->)|[E2 ->]]]; apply callc_inv in E2 as [R ->]; cbn [str].
      - apply throw_inv in H as [-> ->]. eauto.
      - eauto.
      - destruct (snd _); discriminate. }
    exists (t1 ++ [EvFieldErr id e (sw s1)]). split; [rewrite F2, F, app_assoc; reflexivity|].
    destruct X as (A & B & C & D & G & I). refine (conj _ (conj _ (conj _ (conj _ (conj _ _))))).
    + intros ? ? ? ? HI. apply in_app_or in HI as [HI|[HI|[]]]; [eauto|discriminate].
    + intros ? ? ? HI. apply in_app_or in HI as [HI|[HI|[]]]; [eauto|]. inversion HI; subst.
      exists f. split; [reflexivity|]. split; [reflexivity|]. unfold f. discriminate.
    + rewrite hooked_app. cbn. rewrite app_nil_r. exact C.
    + discriminate.
    + right. exists t1, id, e, (sw s1). split; [reflexivity|]. split; [exact Y|eauto].
    + discriminate.
  - inversion H; subst. exists t1. split; [exact F|exact X].
Qed.

Lemma Q_fail (D D' : field -> Prop) (W W' : list name -> Prop) L L' r t :
  (forall f, D f -> D' f) -> (forall l, subseq l L -> subseq l L') -> r <> Ok tt -> Q D W L r t -> Q D' W' L' r t.
Proof.
  intros HD HL Hr (A & B & C & E & F & G). refine (conj _ (conj _ (conj _ (conj _ (conj F G))))).
  - intros id raw v w HI. destruct (A _ _ _ _ HI) as (f & X & Y). eauto.
  - intros id e w HI. destruct (B _ _ _ HI) as (f & X & Y). eauto.
  - auto.
  - congruence.
Qed.
Lemma em_pure_bind A B (m : M A) (k : A -> M B) (Q0 : rs B -> list event -> Prop) :
  quiet m -> (forall a, em (k a) Q0) -> (forall e, Q0 (Err e) []) -> Q0 Div [] -> em (bind m k) Q0.
Proof.
  intros Hm Hk H1 H2 s r s' H. apply bind_inv in H as [(a & s1 & E1 & E2)|[(e & E1 & ->)|[E1 ->]]]; apply Hm in E1.
  - rewrite <- E1. eapply Hk; eauto.
  - exists []. rewrite app_nil_r. auto.
  - exists []. rewrite app_nil_r. auto.
Qed.

Lemma items_Q :
  (forall u : unit_, True)
  /\ (forall is fuel, em (p_items fuel is) (Q (fun f => declared f is) (way is) (written is)))
  /\ (forall i fuel, em (p_item fuel i) (Q (fun f => declared1 f i) (way1 i) (written1 i)))
  /\ (forall cs fuel v d (D : field -> Prop) W L, em d (Q D W L) ->
        em (p_cases fuel cs v d) (Q (fun f => declaredc f cs \/ D f) (fun l => wayc cs l \/ W l) (writtenc cs ++ L)))
  /\ (forall d fuel, em (p_dflt fuel d) (Q (fun f => exists p, d = DSome p /\ declared f p) (fun l => exists p, d = DSome p /\ way p l) (writtend d)))
  /\ (forall f : field, True) /\ (forall t : ftype, True) /\ (forall e : elem, True).
Proof.
  apply syntax_ind; auto.
  - intros fuel. apply em_quiet; [cbn [p_items]; qt|]. intros r. apply Q_nil. intros _. constructor.
  - intros i IHi r IHr fuel. cbn [p_items written]. eapply em_bind; [apply IHi|intros; apply IHr|..].
    + intros [] r0 t1 t2 H1 H2. eapply Q_app; [| | |exact H1|exact H2]; cbn.
      * intros f Hf. apply dcl_here. exact Hf.
      * intros f Hf. apply dcl_next. exact Hf.
      * intros a b Ha Hb. constructor; assumption.
    + intros e t H. eapply Q_fail; [| | |exact H]; [|intros; apply subseq_l; assumption|discriminate]. intros f Hf. apply dcl_here. exact Hf.
    + intros t H. eapply Q_fail; [| | |exact H]; [|intros; apply subseq_l; assumption|discriminate]. intros f Hf. apply dcl_here. exact Hf.
  - intros f _ fuel. cbn [p_item]. eapply em_weaken; [apply field_Q|]. intros r t H. eapply Q_weaken; [| | |exact H]; auto.
    intros g <-. constructor.
  - intros c a IHa b IHb fuel. cbn [p_item written1]. apply em_pure_bind; [qt| |intros; apply Q_nil; discriminate|apply Q_nil; discriminate].
    intros [|].
    + eapply em_weaken; [apply IHa|]. intros r t H. eapply Q_weaken; [| | |exact H]; intros.
      * apply dcl_then. assumption.
      * apply way_then. assumption.
      * apply subseq_l. assumption.
    + eapply em_weaken; [apply IHb|]. intros r t H. eapply Q_weaken; [| | |exact H]; intros.
      * apply dcl_else. assumption.
      * apply way_else. assumption.
      * apply subseq_r. assumption.
  - intros e cs IHc d IHd fuel. cbn [p_item written1]. apply em_pure_bind; [qt| |intros; apply Q_nil; discriminate|apply Q_nil; discriminate].
    intros v. eapply em_weaken; [apply IHc; apply IHd|]. intros r t H. eapply Q_weaken; [| | |exact H]; [| |auto].
    + intros f [Hf|(p & -> & Hf)]; [apply dcl_case; exact Hf|apply dcl_default; exact Hf].
    + intros l [Hf|(p & -> & Hf)]; [apply way_case; exact Hf|apply way_default; exact Hf].
  - intros fuel v d D W L Hd. cbn [p_cases writtenc app]. eapply em_weaken; [exact Hd|].
    intros r t H. eapply Q_weaken; [| | |exact H]; auto.
  - intros vs p IHp r IHr fuel v d D W L Hd. cbn [p_cases writtenc].
    apply em_pure_bind; [qt| |intros; apply Q_nil; discriminate|apply Q_nil; discriminate]. intros [|].
    + eapply em_weaken; [apply IHp|]. intros r0 t H. eapply Q_weaken; [| | |exact H]; intros.
      * left. apply dcl_this. assumption.
      * left. apply way_this. assumption.
      * apply subseq_l, subseq_l. assumption.
    + eapply em_weaken; [apply IHr; exact Hd|]. intros r0 t H. eapply Q_weaken; [| | |exact H]; cbn; intros.
      * destruct H0; [left; apply dcl_later; assumption|auto].
      * destruct H0; [left; apply way_later; assumption|auto].
      * rewrite <- app_assoc. apply subseq_r. assumption.
  - intros fuel s r s' H. apply throw_inv in H as [-> ->]. exists []. rewrite app_nil_r. split; [reflexivity|]. apply Q_nil. discriminate.
  - intros p IH fuel. cbn [p_dflt writtend]. eapply em_weaken; [apply IH|]. intros r t H. eapply Q_weaken; [| | |exact H]; eauto.
Qed.
