From Verif Require Import Base PortModel PortSpec PortProps RegexpModel RegexpSpec.
Open Scope Z_scope.

Lemma cons_inv {A} (a : A) x y : a :: x = a :: y -> x = y.
Proof. congruence. Qed.

Definition sep (p : pattern) : bytes :=
  [47] ++ (if case_insensitive p then [105] else []) ++
  (if match_id p =? 0 then [] else [36; 40] ++ print_u 20 (match_id p) ++ [41]) ++ [124].

Lemma print_id n : 0 <= n < 2 ^ 64 -> print_u 20 n <> [] /\ Forall digit_char (print_u 20 n) /\ numeral_value (print_u 20 n) = n.
Proof.
  intros H. destruct (print_u_ok 20 n) as (A & B & C); [|lia|].
  - change (10 ^ Z.of_nat 20) with 100000000000000000000. change (2 ^ 64) with 18446744073709551616 in H. lia.
  - repeat split; auto.
Qed.

Lemma sep_lle p : 0 <= match_id p < 2 ^ 64 -> looks_like_end (sep p).
Proof.
  intros H. unfold sep. apply lle.
  - destruct (case_insensitive p); auto.
  - destruct (match_id p =? 0); [auto|right]. destruct (print_id _ H) as (A & B & _). eauto.
Qed.

#[local] Opaque print_u.

Lemma lle_inner s : looks_like_end s -> exists m, s = 47 :: m ++ [124] /\ Forall (fun c => c <> 47 /\ c <> 124) m.
Proof.
  intros [ci id Hc Hi]. exists (ci ++ id). split; [cbn; rewrite <- app_assoc; reflexivity|].
  apply Forall_app. split.
  - destruct Hc as [-> | ->]; repeat constructor; discriminate.
  - destruct Hi as [-> | (ds & _ & F & ->)]; [constructor|].
    repeat (constructor; [split; discriminate|]). apply Forall_app. split.
    + eapply Forall_impl; [|exact F]. unfold digit_char. intros c Hc'. lia.
    + repeat constructor; discriminate.
Qed.

Lemma in_no47 m : Forall (fun c => c <> 47 /\ c <> 124) m -> forall a b, m ++ [124] = a ++ 47 :: b -> False.
Proof.
  intros F a b E. assert (In 47 (m ++ [124])) as H by (rewrite E; apply in_or_app; right; left; reflexivity).
  apply in_app_or in H. destruct H as [H | [H|[]]]; [|discriminate].
  rewrite Forall_forall in F. apply F in H. lia.
Qed.

(** The text up to a separator is determined if it contains none. *)
Lemma app_split_lt {A} (a b c d : list A) : a ++ b = c ++ d -> (length a <= length c)%nat ->
  exists x, c = a ++ x /\ b = x ++ d.
Proof.
  revert c. induction a as [|h a IH]; intros c E L; [exists c; split; [reflexivity|exact E]|].
  destruct c as [|h' c]; cbn in L; [lia|]. injection E as <- E. destruct (IH c E ltac:(lia)) as (x & -> & ->).
  exists x. split; reflexivity.
Qed.

Lemma value_half v v' s s' r r' :
  looks_like_end s -> looks_like_end s' ->
  (forall a t b, v' = a ++ t ++ b -> ~ looks_like_end t) ->
  v ++ s ++ r = v' ++ s' ++ r' -> (length v <= length v')%nat -> v = v'.
Proof.
  intros L L' N E Le. destruct (app_split_lt _ _ _ _ E Le) as (x & -> & E2).
  destruct x as [|c x]; [rewrite app_nil_r; reflexivity|exfalso].
  destruct (Nat.le_gt_cases (length s) (length (c :: x))) as [G|G].
  - destruct (app_split_lt _ _ _ _ E2 G) as (y & Ey & _). apply (N v s y); [rewrite Ey; reflexivity|exact L].
  - symmetry in E2. destruct (app_split_lt _ _ _ _ E2 ltac:(lia)) as (y & Ey & Er).
    destruct (lle_inner _ L) as (m & Em & F). destruct (lle_inner _ L') as (m' & Em' & F').
    destruct y as [|c' y]; [rewrite app_nil_r in Ey; rewrite Ey in G; lia|].
    rewrite Em' in Er. cbn in Er. injection Er as <- _. rewrite Em in Ey. cbn in Ey. injection Ey as _ Ey.
    exact (in_no47 m F _ _ Ey).
Qed.

Lemma sep_inj p p' r r' : 0 <= match_id p < 2 ^ 64 -> 0 <= match_id p' < 2 ^ 64 ->
  sep p ++ r = sep p' ++ r' -> case_insensitive p = case_insensitive p' /\ match_id p = match_id p' /\ r = r'.
Proof.
  intros H H' E. unfold sep in E. cbn [app] in E. apply cons_inv in E. rewrite <- !app_assoc in E.
  assert (Hi : forall n, 0 <= n < 2 ^ 64 -> forall n', 0 <= n' < 2 ^ 64 -> forall q q',
     (if n =? 0 then [] else [36; 40] ++ print_u 20 n ++ [41]) ++ [124] ++ q =
     (if n' =? 0 then [] else [36; 40] ++ print_u 20 n' ++ [41]) ++ [124] ++ q' -> n = n' /\ q = q').
  { clear. intros n Hn n' Hn' q q' E.
    destruct (Z.eqb_spec n 0) as [->|N]; destruct (Z.eqb_spec n' 0) as [->|N']; cbn [app] in E; try discriminate.
    - injection E as E. auto.
    - do 2 apply cons_inv in E. rewrite <- !app_assoc in E.
      destruct (print_id n Hn) as (_ & F & V). destruct (print_id n' Hn') as (_ & F' & V').
      assert (G : forall a b x y, Forall digit_char a -> Forall digit_char b -> a ++ 41 :: x = b ++ 41 :: y -> a = b /\ x = y).
      { clear. induction a as [|c a IH]; intros b x y Fa Fb E; destruct b as [|d b].
        - injection E as E. auto.
        - injection E as <- E. inversion Fb; subst. unfold digit_char in *; lia.
        - injection E as -> E. inversion Fa; subst. unfold digit_char in *; lia.
        - injection E as <- E. inversion Fa; subst. inversion Fb; subst. destruct (IH b x y) as [-> ->]; auto. }
      destruct (G _ _ _ _ F F' E) as [P Q]. injection Q as Q. split; [congruence|exact Q]. }
  destruct (case_insensitive p), (case_insensitive p').
  - cbn [app] in E. apply cons_inv in E. destruct (Hi _ H _ H' _ _ E). auto.
  - exfalso. destruct (match_id p' =? 0); cbn [app] in E; discriminate.
  - exfalso. destruct (match_id p =? 0); cbn [app] in E; discriminate.
  - destruct (Hi _ H _ H' _ _ E). auto.
Qed.

Lemma key_rest p ps f :
  cache_key (p :: ps) f = [47] ++ value p ++ sep p ++ (match ps with [] => cacheKey f | _ => cache_key ps f end).
Proof.
  unfold cache_key, sep, pattern_string. destruct ps as [|q ps]; cbn [map join_bar]; rewrite <- ?app_assoc;
    cbn [app]; rewrite <- ?app_assoc; cbn [app]; reflexivity.
Qed.

Lemma cache_key_inj ps : forall ps' f f', Forall plain ps -> Forall plain ps' -> ps <> [] -> ps' <> [] ->
  cache_key ps f = cache_key ps' f' -> ps = ps' /\ f = f'.
Proof.
  induction ps as [|p ps IH]; intros [|p' ps'] f f' F F' N N' E; try congruence.
  rewrite !key_rest in E. cbn [app] in E. apply cons_inv in E.
  inversion F as [|? ? [I P] Fr]; subst. inversion F' as [|? ? [I' P'] Fr']; subst.
  assert (V : value p = value p').
  { destruct (Nat.le_ge_cases (length (value p)) (length (value p'))) as [L|L].
    - eapply value_half; [apply sep_lle; exact I|apply sep_lle; exact I'|exact P'|exact E|exact L].
    - symmetry. symmetry in E. eapply value_half; [apply sep_lle; exact I'|apply sep_lle; exact I|exact P|exact E|exact L]. }
  rewrite V in E. apply app_inv_head in E. destruct (sep_inj _ _ _ _ I I' E) as (C & M & R).
  assert (p = p') by (destruct p, p'; cbn in *; congruence). subst p'.
  assert (K : forall g, exists c t, cacheKey g = c :: t /\ c <> 47).
  { intros [[|] u]; unfold cacheKey; cbn; eexists; eexists; split; try reflexivity; discriminate. }
  destruct ps as [|q ps], ps' as [|q' ps'].
  - split; [reflexivity|]. destruct f as [[|] [|]], f' as [[|] [|]]; cbv in R; first [reflexivity | discriminate R].
  - exfalso. rewrite key_rest in R. destruct (K f) as (c & t & Ec & Nc). rewrite Ec in R. cbn [app] in R. injection R as -> _. congruence.
  - exfalso. rewrite key_rest in R. destruct (K f') as (c & t & Ec & Nc). rewrite Ec in R. cbn [app] in R. injection R as <- _. congruence.
  - destruct (IH (q' :: ps') f f') as [-> ->]; auto; discriminate.
Qed.

Lemma beqb_true a b : beqb a b = true <-> a = b.
Proof.
  revert b; induction a as [|x a IH]; intros [|y b]; cbn; try (split; [discriminate|congruence]); [tauto|].
  rewrite andb_true_iff, Z.eqb_eq, IH. split; [intros [-> ->]; reflexivity|intros E; injection E as -> ->; auto].
Qed.

Lemma compile_all_ok acc todo : forall done cps, compile_all acc done todo = Ok cps -> cps = done ++ todo.
Proof.
  induction todo as [|p r IH]; intros done cps E; cbn in E.
  - injection E as <-. rewrite app_nil_r. reflexivity.
  - destruct (acc done p); [|discriminate]. apply IH in E. rewrite <- app_assoc in E. exact E.
Qed.

Section Run.
  Variable acc : list pattern -> pattern -> bool.

  (** [hist] are the requests so far. *)
  Record ok_state (hist : list (list pattern * flags)) (st : rstate) : Prop := {
    ok_obj : forall k o, cache st k = Some (Some o) -> exists ps f, In (ps, f) hist /\ k = cache_key ps f /\
               nth_error (objects st) o = Some (mkCompiled f ps);
    ok_fun : forall k k' o, cache st k = Some (Some o) -> cache st k' = Some (Some o) -> k = k' }.

  Lemma ok_init : ok_state [] rinit.
  Proof. split; cbn; discriminate. Qed.

  Lemma kup_same {A} (m : bytes -> A) k v : kup m k v k = v.
  Proof. unfold kup. destruct (beqb k k) eqn:E; [reflexivity|]. assert (beqb k k = true) by (apply beqb_true; reflexivity). congruence. Qed.
  Lemma kup_other {A} (m : bytes -> A) k v x : x <> k -> kup m k v x = m x.
  Proof. unfold kup. intros N. destruct (beqb x k) eqn:E; [apply beqb_true in E; congruence|reflexivity]. Qed.
  Lemma beq_dec (a b : bytes) : {a = b} + {a <> b}.
  Proof. destruct (beqb a b) eqn:E; [left; apply beqb_true; exact E|right; intros H; apply beqb_true in H; congruence]. Qed.

  Lemma construct_ok hist st ps f : ok_state hist st ->
    let st' := fst (construct acc st ps f) in
    ok_state (hist ++ [(ps, f)]) st' /\
    (forall o, snd (construct acc st ps f) = Ok o -> cache st' (cache_key ps f) = Some (Some o)) /\
    (forall k o, cache st k = Some (Some o) -> cache st' k = Some (Some o)).
  Proof.
    intros [OO OF]. cbv zeta. unfold construct.
    assert (HH : forall k o, cache st k = Some (Some o) -> exists ps' f', In (ps', f') (hist ++ [(ps, f)]) /\ k = cache_key ps' f' /\
               nth_error (objects st) o = Some (mkCompiled f' ps')).
    { intros k o C. destruct (OO _ _ C) as (ps' & f' & I & R). exists ps', f'. split; [apply in_or_app; auto|exact R]. }
    assert (New : forall cps, (forall o, cache st (cache_key ps f) <> Some (Some o)) -> compile_all acc [] ps = Ok cps ->
       let st' := mkR (kup (cache st) (cache_key ps f) (Some (Some (length (objects st))))) (objects st ++ [mkCompiled f cps]) in
       ok_state (hist ++ [(ps, f)]) st' /\
       (forall o, Ok (length (objects st)) = Ok o -> cache st' (cache_key ps f) = Some (Some o)) /\
       (forall k o, cache st k = Some (Some o) -> cache st' k = Some (Some o))).
    { intros cps N C. apply compile_all_ok in C. cbn in C. subst cps. cbv zeta.
      assert (B : forall k o, cache st k = Some (Some o) -> (o < length (objects st))%nat).
      { intros k o C. destruct (OO _ _ C) as (? & ? & _ & _ & H). apply nth_error_Some. congruence. }
      split; [split|split]; cbn [cache objects].
      - intros k o. destruct (beq_dec k (cache_key ps f)) as [-> | Nk].
        + rewrite kup_same. intros [= <-]. exists ps, f. split; [apply in_or_app; right; left; reflexivity|]. split; [reflexivity|].
          rewrite nth_error_app2, Nat.sub_diag by lia. reflexivity.
        + rewrite kup_other by exact Nk. intros C. destruct (HH _ _ C) as (ps' & f' & I & K & O). exists ps', f'.
          split; [exact I|]. split; [exact K|]. rewrite nth_error_app1; [exact O|]. eapply B; exact C.
      - intros k k' o. destruct (beq_dec k (cache_key ps f)) as [-> | Nk]; destruct (beq_dec k' (cache_key ps f)) as [-> | Nk'];
          rewrite ?kup_same, ?kup_other by assumption; auto.
        + intros [= <-] C. apply B in C. lia.
        + intros C [= <-]. apply B in C. lia.
        + apply OF.
      - intros o [= <-]. apply kup_same.
      - intros k o C. rewrite kup_other; [exact C|]. intros ->. exact (N _ C). }
    assert (Old : forall e : res nat, (forall o, e <> Ok o) -> (forall o, cache st (cache_key ps f) <> Some (Some o)) ->
       let st' := mkR (kup (cache st) (cache_key ps f) (Some None)) (objects st) in
       ok_state (hist ++ [(ps, f)]) st' /\
       (forall o, e = Ok o -> cache st' (cache_key ps f) = Some (Some o)) /\
       (forall k o, cache st k = Some (Some o) -> cache st' k = Some (Some o))).
    { intros e Ne N. cbv zeta.
      assert (Q : forall k o, kup (cache st) (cache_key ps f) (Some None) k = Some (Some o) -> cache st k = Some (Some o)).
      { intros k o. destruct (beq_dec k (cache_key ps f)) as [-> | Nk]; rewrite ?kup_same, ?kup_other by assumption; [discriminate|auto]. }
      split; [split|split]; cbn [cache objects].
      - intros k o C. apply Q in C. exact (HH _ _ C).
      - intros k k' o C C'. apply Q in C. apply Q in C'. eapply OF; eassumption.
      - intros o E. elim (Ne o E).
      - intros k o C. rewrite kup_other; [exact C|]. intros ->. exact (N _ C). }
    destruct (cache st (cache_key ps f)) as [[o|]|] eqn:E.
    - cbn [fst snd]. split; [split; [exact HH|exact OF]|split; [|auto]]. intros o' [= <-]. exact E.
    - destruct (compile_all acc [] ps) as [cps|e|] eqn:C; cbn [fst snd];
        [apply New; congruence|apply Old; congruence|apply Old; congruence].
    - destruct (compile_all acc [] ps) as [cps|e|] eqn:C; cbn [fst snd];
        [apply New; congruence|apply Old; congruence|apply Old; congruence].
  Qed.

  Lemma run_ok l : forall hist st, ok_state hist st ->
    let st' := fst (run_regexps acc st l) in
    ok_state (hist ++ l) st' /\
    (forall k o, cache st k = Some (Some o) -> cache st' k = Some (Some o)) /\
    (forall i ps f o, nth_error l i = Some (ps, f) -> nth_error (snd (run_regexps acc st l)) i = Some (Ok o) ->
       cache st' (cache_key ps f) = Some (Some o)).
  Proof.
    induction l as [|[ps f] l IH]; intros hist st H; cbv zeta.
    - cbn. rewrite app_nil_r. split; [exact H|]. split; [auto|]. intros [|i] ps f o; discriminate.
    - cbn [run_regexps]. destruct (construct_ok hist st ps f H) as (H1 & H2 & H3).
      destruct (construct acc st ps f) as [st1 o1] eqn:E1. cbn [fst snd] in *.
      destruct (IH _ _ H1) as (G1 & G2 & G3). destruct (run_regexps acc st1 l) as [st2 os] eqn:E2. cbn [fst snd] in *.
      rewrite <- app_assoc in G1. split; [exact G1|]. split; [auto|].
      intros [|i] ps' f' o; cbn [nth_error].
      + intros [= <- <-] [= ->]. apply G2, H2. reflexivity.
      + apply G3.
  Qed.
End Run.
