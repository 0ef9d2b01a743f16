From Verif Require Import Base StrModel StrSpec.

Lemma prefixb_spec d s : prefixb d s = true <-> exists r, s = d ++ r.
Proof.
  revert s. induction d as [|x d IH]; intros s; cbn [prefixb].
  - split; [intros _; exists s; reflexivity|reflexivity].
  - destruct s as [|y s]; [split; [discriminate|intros [r E]; discriminate]|].
    rewrite andb_true_iff, Z.eqb_eq, IH. split.
    + intros [-> [r ->]]. exists r. reflexivity.
    + intros [r E]. injection E as -> ->. split; [reflexivity|exists r; reflexivity].
Qed.

Lemma bytes_eqb_spec a b : bytes_eqb a b = true <-> a = b.
Proof.
  unfold bytes_eqb. rewrite andb_true_iff, prefixb_spec, Nat.eqb_eq. split.
  - intros [[r ->] E]. rewrite app_length in E. destruct r as [|? ?]; [rewrite app_nil_r; reflexivity|cbn in E; lia].
  - intros ->. split; [exists []; rewrite app_nil_r; reflexivity|reflexivity].
Qed.

(** find: first occurrence *)
Lemma find_sub_some s d p : find_sub s d = Some p ->
  s = firstn p s ++ d ++ skipn (p + length d) s /\ length (firstn p s) = p /\
  (forall a b, s = a ++ d ++ b -> p <= length a).
Proof.
  revert p. induction s as [|x s IH]; intros p; cbn [find_sub].
  - destruct (prefixb d []) eqn:E; [|discriminate]. intros H; injection H as <-.
    apply prefixb_spec in E. destruct E as [r E]. symmetry in E. apply app_eq_nil in E. destruct E as [-> ->].
    cbn. split; [reflexivity|]. split; [reflexivity|]. intros; lia.
  - destruct (prefixb d (x :: s)) eqn:E.
    + intros H; injection H as <-. apply prefixb_spec in E. destruct E as [r E]. rewrite E. cbn [firstn app length plus].
      rewrite skipn_app_ge, Nat.sub_diag by lia. cbn [skipn]. split; [reflexivity|]. split; [reflexivity|]. intros; lia.
    + destruct (find_sub s d) as [q|] eqn:F; [|discriminate]. cbn [option_map]. intros H; injection H as <-.
      destruct (IH q eq_refl) as (A & B & C). split; [|split].
      * cbn [firstn plus skipn app]. congruence.
      * cbn [firstn length]. congruence.
      * intros a b Ea. destruct a as [|y a].
        { exfalso. assert (prefixb d (x :: s) = true) by (apply prefixb_spec; exists b; exact Ea). congruence. }
        injection Ea as _ Ea. cbn. specialize (C a b Ea). lia.
Qed.

Lemma find_sub_none s d : find_sub s d = None -> ~ contains d s.
Proof.
  induction s as [|x s IH]; cbn [find_sub]; intros H [a [b E]].
  - destruct (prefixb d []) eqn:F; [discriminate|]. symmetry in E. apply app_eq_nil in E. destruct E as [_ E].
    apply app_eq_nil in E. destruct E as [-> _]. discriminate F.
  - destruct (prefixb d (x :: s)) eqn:F; [discriminate|]. destruct (find_sub s d) eqn:G; [discriminate|].
    destruct a as [|y a].
    + assert (prefixb d (x :: s) = true) by (apply prefixb_spec; exists b; exact E). congruence.
    + injection E as _ E. apply IH; [reflexivity|]. exists a, b. exact E.
Qed.

Lemma find_sub_before s d p : find_sub s d = Some p -> d <> [] -> ~ contains d (firstn p s).
Proof.
  intros H Hd [a [b E]]. destruct (find_sub_some s d p H) as (A & B & C).
  assert (E2 : s = a ++ d ++ (b ++ d ++ skipn (p + length d) s)).
  { rewrite A at 1. rewrite E. rewrite <- !app_assoc. reflexivity. }
  specialize (C _ _ E2). assert (length (firstn p s) = length a + length d + length b) by (rewrite E, !app_length; lia).
  destruct d; [congruence|cbn in *; lia].
Qed.

Lemma join_concat l d : join l d = concat_with d l.
Proof.
  unfold join. destruct l as [|x l]; [reflexivity|]. cbn [join_loop app]. revert x.
  induction l as [|y l IH]; intros x; [cbn; apply app_nil_r|]. cbn [join_loop concat_with]. rewrite IH. reflexivity.
Qed.

Lemma split_loop_ok fuel s d : d <> [] -> length s < fuel ->
  exists l, split_loop fuel s d = Ok l /\ l <> [] /\ Forall (fun x => ~ contains d x) l /\
    ((concat_with d l = s) \/ (concat_with d (l ++ [[]]) = s /\ exists a, s = a ++ d)).
Proof.
  intros Hd. revert s. induction fuel as [|f IH]; intros s Hf; [lia|]. cbn [split_loop].
  destruct (find_sub s d) as [p|] eqn:F.
  - destruct (find_sub_some s d p F) as (A & B & C). pose proof (find_sub_before s d p F Hd) as N.
    assert (HL : length s = p + length d + length (skipn (p + length d) s)).
    { rewrite A at 1. rewrite !app_length, B. lia. }
    assert (0 < length d) by (destruct d; [congruence|cbn; lia]).
    remember (skipn (p + length d) s) as s' eqn:Es.
    destruct s' as [|x s'].
    + exists [firstn p s]. split; [reflexivity|]. split; [discriminate|]. split; [constructor; auto|].
      right. cbn [concat_with app]. rewrite app_nil_r in A. rewrite app_nil_r. split; [symmetry; exact A|eauto].
    + destruct (IH (x :: s')) as (l & -> & Hne & HF & Hc); [lia|]. cbn [bind].
      exists (firstn p s :: l). split; [reflexivity|]. split; [discriminate|]. split; [constructor; auto|].
      destruct Hc as [Hc|[Hc [a Ha]]].
      * left. destruct l as [|y l]; [congruence|]. change (firstn p s ++ d ++ concat_with d (y :: l) = s). rewrite Hc. symmetry. exact A.
      * right. split.
        { destruct l as [|y l]; [congruence|]. change (firstn p s ++ d ++ concat_with d ((y :: l) ++ [[]]) = s). rewrite Hc. symmetry. exact A. }
        { exists (firstn p s ++ d ++ a). rewrite A at 1. rewrite Ha, <- !app_assoc. reflexivity. }
  - exists [s]. split; [reflexivity|]. split; [discriminate|]. split; [constructor; [apply find_sub_none; exact F|constructor]|].
    left. reflexivity.
Qed.

(** Whether the loop ends with an empty rest, for unbordered delimiters, is whether the string ends in the delimiter. *)
Lemma split_loop_exact fuel s d : d <> [] -> unbordered d -> length s < fuel ->
  exists l, split_loop fuel s d = Ok l /\ l <> [] /\
    ((exists a, s = a ++ d) -> concat_with d (l ++ [[]]) = s) /\ (~ (exists a, s = a ++ d) -> concat_with d l = s).
Proof.
  intros Hd Hu. revert s. induction fuel as [|f IH]; intros s Hf; [lia|]. cbn [split_loop].
  destruct (find_sub s d) as [p|] eqn:F.
  - destruct (find_sub_some s d p F) as (A & B & C).
    assert (HL : length s = p + length d + length (skipn (p + length d) s)).
    { rewrite A at 1. rewrite !app_length, B. lia. }
    assert (0 < length d) by (destruct d; [congruence|cbn; lia]).
    remember (skipn (p + length d) s) as s' eqn:Es.
    destruct s' as [|x s'].
    + exists [firstn p s]. split; [reflexivity|]. split; [discriminate|]. rewrite app_nil_r in A. split.
      * intros _. cbn [concat_with app]. rewrite app_nil_r. symmetry. exact A.
      * intros N. exfalso. apply N. eauto.
    + destruct (IH (x :: s')) as (l & -> & Hne & H1 & H2); [lia|]. cbn [bind].
      exists (firstn p s :: l). split; [reflexivity|]. split; [discriminate|].
      assert (K : (exists a, s = a ++ d) <-> (exists a, x :: s' = a ++ d)).
      { split; intros [a Ha].
        - destruct (Nat.le_gt_cases (length d) (length (x :: s'))) as [L|L].
          + exists (skipn (p + length d) a). rewrite Es, Ha. rewrite skipn_app_le; [reflexivity|].
            apply (f_equal (@length _)) in Ha. rewrite app_length in Ha. lia.
          + exfalso. apply (Hu (length d - length (x :: s'))); [cbn in *; lia|].
            (* the last k characters of the first occurrence are the first k of the last occurrence *)
            set (m := length (x :: s')) in *. apply (f_equal (@length _)) in Ha as La. rewrite app_length in La.
            assert (E1 : skipn m d = firstn (length d - m) (skipn (p + m) s)).
            { rewrite A. rewrite skipn_app_ge by lia. rewrite B. replace (p + m - p) with m by lia.
              rewrite skipn_app_le by lia. rewrite firstn_app_ge by (rewrite skipn_length; lia).
              rewrite skipn_length, Nat.sub_diag, firstn_O, app_nil_r. reflexivity. }
            assert (E2 : firstn (length d - m) d = firstn (length d - m) (skipn (p + m) s)).
            { rewrite Ha. rewrite skipn_app_ge by lia. replace (p + m - length a) with 0 by lia. reflexivity. }
            rewrite E2, <- E1. f_equal. lia.
        - exists (firstn p s ++ d ++ a). rewrite A at 1. rewrite Ha, <- !app_assoc. reflexivity. }
      split; intros Hs.
      * destruct l as [|y l]; [congruence|]. change (firstn p s ++ d ++ concat_with d ((y :: l) ++ [[]]) = s).
        rewrite H1 by (apply K; exact Hs). symmetry. exact A.
      * destruct l as [|y l]; [congruence|]. change (firstn p s ++ d ++ concat_with d (y :: l) = s).
        rewrite H2 by (rewrite <- K; exact Hs). symmetry. exact A.
  - exists [s]. split; [reflexivity|]. split; [discriminate|]. split; [|reflexivity].
    intros [a Ha]. exfalso. apply (find_sub_none s d F). exists a, []. rewrite app_nil_r. exact Ha.
Qed.

Lemma ends_test s d : length d <= length s ->
  bytes_eqb (skipn (length s - length d) s) d = true <-> exists a, s = a ++ d.
Proof.
  intros H. rewrite bytes_eqb_spec. split.
  - intros E. exists (firstn (length s - length d) s). rewrite <- E at 2. symmetry. apply firstn_skipn.
  - intros [a ->]. rewrite app_length, skipn_app_ge by lia. replace (length a + length d - length d - length a) with 0 by lia. reflexivity.
Qed.

Lemma split_join s d : d <> [] -> unbordered d -> exists l, split s d = Ok l /\ join l d = s.
Proof.
  intros Hd Hu. unfold split. destruct d as [|x d]; [congruence|]. set (dd := x :: d) in *.
  destruct (Nat.ltb_spec (length s) (length dd)) as [L|L]; [exists [s]; split; [reflexivity|cbn; apply app_nil_r]|].
  destruct (split_loop_exact (S (length s)) s dd Hd Hu ltac:(lia)) as (l & -> & _ & H1 & H2). cbn [bind].
  eexists. split; [reflexivity|]. rewrite join_concat.
  destruct (bytes_eqb (skipn (length s - length dd) s) dd) eqn:E.
  - apply H1. apply ends_test; assumption.
  - apply H2. rewrite <- ends_test by exact L. congruence.
Qed.

Lemma split_no_delim s d : d <> [] -> exists l, split s d = Ok l /\ Forall (fun x => ~ contains d x) l.
Proof.
  intros Hd. unfold split. destruct d as [|x d]; [congruence|]. set (dd := x :: d) in *.
  destruct (Nat.ltb_spec (length s) (length dd)) as [L|L].
  - exists [s]. split; [reflexivity|]. constructor; [|constructor]. intros [a [b ->]]. rewrite !app_length in L. lia.
  - destruct (split_loop_ok (S (length s)) s dd Hd ltac:(lia)) as (l & -> & _ & HF & _). cbn [bind].
    eexists. split; [reflexivity|]. destruct (bytes_eqb _ _); [|exact HF]. apply Forall_app. split; [exact HF|].
    constructor; [|constructor]. intros [a [b E]]. symmetry in E. apply app_eq_nil in E. destruct E as [_ E]. discriminate E.
Qed.

(** Exact outcome of split *)
Lemma app_eq_len {A} (a a' b b' : list A) : length a = length a' -> a ++ b = a' ++ b' -> a = a' /\ b = b'.
Proof.
  revert a'. induction a as [|x a IH]; intros [|y a'] HL E; cbn in *; try discriminate; [auto|].
  injection E as -> E. destruct (IH a' ltac:(lia) E) as [-> ->]. auto.
Qed.
Lemma pieces_join d s l : pieces d s l -> l <> [] /\ concat_with d l = s /\ Forall (fun x => ~ contains d x) l \/ d = [].
Proof.
  destruct d as [|x0 d0]; [right; reflexivity|left]. set (d := x0 :: d0) in *.
  induction H as [s Hn|a b l Hm Hp (Hne & Hc & HF)]; [split; [discriminate|]; split; [reflexivity|]; constructor; [exact Hn|constructor]|].
  split; [discriminate|]. split.
  - destruct l as [|y l]; [congruence|]. change (a ++ d ++ concat_with d (y :: l) = a ++ d ++ b). rewrite Hc. reflexivity.
  - constructor; [|exact HF]. intros [u [v ->]]. specialize (Hm u (v ++ d ++ b)). rewrite <- !app_assoc in Hm.
    specialize (Hm eq_refl). rewrite !app_length in Hm. unfold d in Hm at 1. cbn [length] in Hm. lia.
Qed.

Lemma pieces_unique d s l : d <> [] -> pieces d s l -> forall l', pieces d s l' -> l' = l.
Proof.
  intros Hd. induction 1 as [s Hn|a b l Hm Hp IH]; intros l' H'.
  - inversion H' as [s' Hn' E|a b r Hm Hp E]; subst; [reflexivity|]. exfalso. apply Hn. exists a, b. reflexivity.
  - inversion H' as [s' Hn' E|a' b' r Hm' Hp' E]; subst; [exfalso; apply Hn'; exists a, b; reflexivity|].
    assert (HL : length a = length a').
    { apply Nat.le_antisymm; [apply (Hm a' b'); symmetry; exact E|apply (Hm' a b); exact E]. }
    apply app_eq_len in E; [|congruence]. destruct E as [-> E]. apply app_inv_head in E. subst b'.
    f_equal. apply IH. exact Hp'.
Qed.

Lemma split_loop_pieces fuel s d : d <> [] -> s <> [] -> length s < fuel ->
  exists l, split_loop fuel s d = Ok l /\
    ((pieces d s l /\ last l [] <> []) \/ (pieces d s (l ++ [[]]) /\ exists a, s = a ++ d)).
Proof.
  intros Hd. revert s. induction fuel as [|f IH]; intros s Hs Hf; [lia|]. cbn [split_loop].
  destruct (find_sub s d) as [p|] eqn:F.
  - destruct (find_sub_some s d p F) as (A & B & C).
    assert (HL : length s = p + length d + length (skipn (p + length d) s)).
    { rewrite A at 1. rewrite !app_length, B. lia. }
    assert (0 < length d) by (destruct d; [congruence|cbn; lia]).
    assert (M : forall a' b', firstn p s ++ d ++ skipn (p + length d) s = a' ++ d ++ b' -> length (firstn p s) <= length a').
    { intros a' b'. rewrite <- A, B. apply C. }
    remember (skipn (p + length d) s) as s' eqn:Es.
    destruct s' as [|x s'].
    + exists [firstn p s]. split; [reflexivity|]. right. split; [|exists (firstn p s); rewrite app_nil_r in A; exact A].
      rewrite A at 1. cbn [app]. constructor; [exact M|]. constructor. intros [u [v E]]. symmetry in E.
      apply app_eq_nil in E. destruct E as [_ E]. apply app_eq_nil in E. destruct E as [E _]. congruence.
    + destruct (IH (x :: s')) as (l & -> & Hc); [discriminate|lia|]. cbn [bind].
      exists (firstn p s :: l). split; [reflexivity|]. destruct Hc as [[Hp Hl]|[Hp [a Ha]]].
      * left. split; [rewrite A at 1; constructor; assumption|]. destruct l; [cbn in Hl; congruence|exact Hl].
      * right. split; [rewrite A at 1; cbn [app]; constructor; assumption|].
        exists (firstn p s ++ d ++ a). rewrite A at 1. rewrite Ha, <- !app_assoc. reflexivity.
  - exists [s]. split; [reflexivity|]. left. split; [constructor; apply find_sub_none; exact F|exact Hs].
Qed.

Lemma split_exact s d : d <> [] -> exists l, pieces d s l /\
  ((split s d = Ok l /\ ((exists a, s = a ++ d) -> last l [] = [])) \/
   (split s d = Ok (l ++ [[]]) /\ (exists a, s = a ++ d) /\ last l [] <> [])).
Proof.
  intros Hd. unfold split. destruct d as [|x d]; [congruence|]. set (dd := x :: d) in *.
  destruct (Nat.ltb_spec (length s) (length dd)) as [L|L].
  - exists [s]. split.
    + constructor. intros [u [v ->]]. rewrite !app_length in L. lia.
    + left. split; [reflexivity|]. intros [a ->]. rewrite app_length in L. lia.
  - destruct s as [|y s]; [cbn in L; lia|].
    destruct (split_loop_pieces (S (length (y :: s))) (y :: s) dd Hd ltac:(discriminate) ltac:(lia)) as (l & -> & H). cbn [bind].
    destruct (bytes_eqb _ dd) eqn:E.
    + apply ends_test in E; [|exact L]. destruct H as [[Hp Hl]|[Hp _]].
      * exists l. split; [exact Hp|]. right. auto.
      * exists (l ++ [[]]). split; [exact Hp|]. left. split; [reflexivity|]. intros _. apply last_last.
    + assert (N : ~ exists a, y :: s = a ++ dd) by (rewrite <- ends_test by exact L; congruence).
      destruct H as [[Hp Hl]|[_ H]]; [|contradiction]. exists l. split; [exact Hp|]. left. split; [reflexivity|]. intros Q. contradiction.
Qed.

(** Trimming *)
Lemma inb_In cs x : inb cs x = true <-> In x cs.
Proof.
  unfold inb. rewrite existsb_exists. split.
  - intros [y [Hy E]]. apply Z.eqb_eq in E. subst. exact Hy.
  - intros H. exists x. split; [exact H|apply Z.eqb_refl].
Qed.

Lemma find_first_spec p s :
  match find_first p s with
  | Some k => exists x, s = firstn k s ++ x :: skipn (k + 1) s /\ length (firstn k s) = k /\ p x = true /\
      Forall (fun y => p y = false) (firstn k s)
  | None => Forall (fun y => p y = false) s
  end.
Proof.
  induction s as [|x s IH]; cbn [find_first]; [constructor|].
  destruct (p x) eqn:E.
  - exists x. cbn. auto.
  - destruct (find_first p s) as [k|]; cbn [option_map].
    + destruct IH as (y & A & B & C & D). exists y. cbn [firstn skipn plus app length].
      split; [rewrite <- A; reflexivity|]. split; [congruence|]. split; [exact C|]. constructor; assumption.
    + constructor; assumption.
Qed.

Lemma find_last_spec p s :
  match find_last p s with
  | Some k => exists x, s = firstn k s ++ x :: skipn (k + 1) s /\ length (firstn k s) = k /\ p x = true /\
      Forall (fun y => p y = false) (skipn (k + 1) s)
  | None => Forall (fun y => p y = false) s
  end.
Proof.
  induction s as [|x s IH]; cbn [find_last]; [constructor|].
  destruct (find_last p s) as [k|].
  - destruct IH as (y & A & B & C & D). exists y. cbn [firstn skipn plus app length].
    split; [rewrite <- A; reflexivity|]. split; [congruence|]. split; assumption.
  - destruct (p x) eqn:E.
    + exists x. cbn. auto.
    + constructor; assumption.
Qed.

Lemma ltrim_spec s cs : exists w, s = w ++ ltrim s cs /\ all_in cs w /\ (forall x r, ltrim s cs = x :: r -> ~ In x cs).
Proof.
  unfold ltrim. pose proof (find_first_spec (fun x => negb (inb cs x)) s) as H.
  destruct (find_first _ s) as [k|].
  - destruct H as (x & A & B & C & D). assert (k <= length s) by (rewrite A, app_length, B; lia).
    rewrite Nat.min_l by lia. exists (firstn k s). split; [symmetry; apply firstn_skipn|]. split.
    + eapply Forall_impl; [|exact D]. cbn. intros y Hy. apply inb_In. destruct (inb cs y); [reflexivity|discriminate].
    + intros y r E. rewrite A, skipn_app_ge, B, Nat.sub_diag in E by lia. injection E as -> _.
      intros Hin. apply inb_In in Hin. rewrite Hin in C. discriminate.
  - rewrite Nat.min_l by lia. exists s. rewrite skipn_all, app_nil_r. split; [reflexivity|]. split.
    + eapply Forall_impl; [|exact H]. cbn. intros y Hy. apply inb_In. destruct (inb cs y); [reflexivity|discriminate].
    + discriminate.
Qed.

Lemma rtrim_spec s cs : exists w, s = rtrim s cs ++ w /\ all_in cs w /\ (forall x r, rtrim s cs = r ++ [x] -> ~ In x cs).
Proof.
  unfold rtrim. pose proof (find_last_spec (fun x => negb (inb cs x)) s) as H.
  destruct (find_last _ s) as [k|].
  - destruct H as (x & A & B & C & D). assert (HL : k < length s) by (rewrite A, app_length, B; cbn; lia).
    replace (length s - (length s - (k + 1))) with (k + 1) by lia.
    exists (skipn (k + 1) s). split; [symmetry; apply firstn_skipn|]. split.
    + eapply Forall_impl; [|exact D]. cbn. intros y Hy. apply inb_In. destruct (inb cs y); [reflexivity|discriminate].
    + intros y r E. assert (E2 : firstn (k + 1) s = firstn k s ++ [x]).
      { rewrite A at 1. rewrite firstn_app_ge by lia. rewrite B. replace (k + 1 - k) with 1 by lia. reflexivity. }
      rewrite E2 in E. apply app_inj_tail in E. destruct E as [_ <-].
      intros Hin. apply inb_In in Hin. rewrite Hin in C. discriminate.
  - replace (length s - (length s - 0)) with 0 by lia. exists s. cbn. split; [reflexivity|]. split.
    + eapply Forall_impl; [|exact H]. cbn. intros y Hy. apply inb_In. destruct (inb cs y); [reflexivity|discriminate].
    + intros x r E. destruct r; discriminate.
Qed.

Lemma trim_spec s cs : exists w1 w2, s = w1 ++ trim s cs ++ w2 /\ all_in cs w1 /\ all_in cs w2 /\
  (forall x r, trim s cs = x :: r -> ~ In x cs) /\ (forall x r, trim s cs = r ++ [x] -> ~ In x cs).
Proof.
  destruct (rtrim_spec s cs) as (w2 & A2 & B2 & C2). destruct (ltrim_spec (rtrim s cs) cs) as (w1 & A1 & B1 & C1).
  fold (trim s cs) in A1, C1. exists w1, w2. split; [rewrite app_assoc, <- A1; exact A2|]. repeat split; auto.
  intros x r E. apply (C2 x (w1 ++ r)). rewrite A1, E, app_assoc. reflexivity.
Qed.

(** Words *)
Lemma Forall_inb_false cs s : Forall (fun y => inb cs y = false) s -> none_in cs s.
Proof. intros H. eapply Forall_impl; [|exact H]. cbn. intros y Hy Hin. apply inb_In in Hin. congruence. Qed.

Lemma split_ws_loop_ok fuel s : length s <= fuel -> (forall x r, s = x :: r -> ~ In x ws) ->
  exists l, split_ws_loop fuel s = Ok l /\ words s l.
Proof.
  revert s. induction fuel as [|f IH]; intros s Hf Hh.
  - destruct s; [|cbn in Hf; lia]. exists []. split; [reflexivity|]. constructor. constructor.
  - destruct s as [|c s]; [exists []; split; [reflexivity|constructor; constructor]|].
    cbn [split_ws_loop]. pose proof (find_first_spec (inb ws) (c :: s)) as H.
    destruct (find_first (inb ws) (c :: s)) as [p|].
    + destruct H as (x & A & B & C & D). destruct (ltrim_spec (skipn (p + 1) (c :: s)) ws) as (w & A1 & B1 & C1).
      assert (p <> 0). { intros ->. apply (f_equal (hd 0%Z)) in A. cbn in A. subst x. apply (Hh c s eq_refl). apply inb_In. exact C. }
      destruct (IH (ltrim (skipn (p + 1) (c :: s)) ws)) as (l & E & Hl).
      * apply (f_equal (@length _)) in A1. rewrite app_length, skipn_length in A1. cbn [length] in A1, Hf. lia.
      * exact C1.
      * rewrite E. cbn [bind]. eexists. split; [reflexivity|]. rewrite A at 1.
        change (words ([] ++ firstn p (c :: s) ++ x :: skipn (p + 1) (c :: s)) (firstn p (c :: s) :: l)).
        apply words_cons; [constructor| |apply Forall_inb_false; exact D|right; do 2 eexists; split; [reflexivity|apply inb_In; exact C]|].
        { intros E0. apply (f_equal (@length _)) in E0. rewrite B in E0. cbn in E0. lia. }
        { rewrite A1 at 1. change (words ((x :: w) ++ ltrim (skipn (p + 1) (c :: s)) ws) l).
          assert (Hxw : all_in ws (x :: w)) by (constructor; [apply inb_In; exact C|exact B1]).
          clear - Hl Hxw. inversion Hl as [s' Hs|w' t r l' Hw' Ht Hn Hr Hl']; subst.
          - constructor. apply Forall_app. auto.
          - rewrite app_assoc. apply words_cons; auto. apply Forall_app. auto. }
    + exists [c :: s]. split; [reflexivity|].
      rewrite <- (app_nil_r (c :: s)) at 1. change (words ([] ++ (c :: s) ++ []) [c :: s]).
      apply words_cons; [constructor|discriminate|apply Forall_inb_false; exact H|left; reflexivity|constructor; constructor].
Qed.

Lemma words_app_ws s w l : words s l -> all_in ws w -> words (s ++ w) l.
Proof.
  intros H. induction H as [s Hs|w0 t r l Hw Ht Hn Hr Hl IH]; intros Hw2.
  - constructor. apply Forall_app. auto.
  - rewrite <- !app_assoc. apply words_cons; auto. destruct Hr as [->|(x & r' & -> & Hx)].
    + destruct w as [|x w]; [left; reflexivity|right]. inversion Hw2; subst. cbn. eauto.
    + right. cbn. eauto.
Qed.

Lemma split_ws_ok s : exists l, split_ws s = Ok l /\ words s l.
Proof.
  unfold split_ws. destruct (trim_spec s ws) as (w1 & w2 & A & B1 & B2 & C1 & C2).
  destruct (split_ws_loop_ok (length (trim s ws)) (trim s ws) (le_n _) C1) as (l & E & Hl). exists l. split; [exact E|].
  rewrite A. inversion Hl as [s' Hs|w' t r l' Hw' Ht Hn Hr Hl']; subst.
  - constructor. apply Forall_app. split; [exact B1|]. apply Forall_app. auto.
  - pose proof (words_app_ws _ w2 _ Hl B2) as HW. rewrite <- !app_assoc in *. rewrite app_assoc. apply words_cons; auto.
    + apply Forall_app. auto.
    + destruct Hr as [->|(x & r' & -> & Hx)].
      * destruct w2 as [|x w2]; [left; reflexivity|right]. inversion B2; subst. cbn. eauto.
      * right. cbn. eauto.
    + apply words_app_ws; auto.
Qed.

(** The list of words is determined. *)
Lemma words_unique s l1 : words s l1 -> forall l2, words s l2 -> l1 = l2.
Proof.
  induction 1 as [s Hs|w t r l Hw Ht Hn Hr Hl IH]; intros l2 H2.
  - inversion H2 as [s' Hs'|w' t' r' l' Hw' Ht' Hn' Hr' Hl']; subst; [reflexivity|].
    exfalso. destruct t' as [|x t']; [congruence|]. inversion Hn' as [|? ? Hx _]; subst. apply Hx.
    apply Forall_app in Hs. destruct Hs as [_ Hs]. inversion Hs; assumption.
  - inversion H2 as [s' Hs'|w' t' r' l' Hw' Ht' Hn' Hr' Hl' E]; subst.
    + exfalso. destruct t as [|x t]; [congruence|]. inversion Hn as [|? ? Hx _]; subst. apply Hx.
      apply Forall_app in Hs'. destruct Hs' as [_ Hs']. inversion Hs'; assumption.
    + (* same leading whitespace, same word *)
      assert (Ew : w' = w /\ t' ++ r' = t ++ r).
      { clear - E Hw Hw' Ht Ht' Hn Hn'. revert w' Hw' E. induction w as [|x w IHw]; intros [|y w'] Hw' E; cbn [app] in *.
        - auto.
        - exfalso. destruct t as [|a t]; [congruence|]. cbn in E. injection E as -> _. inversion Hn; subst. inversion Hw'; subst. contradiction.
        - exfalso. destruct t' as [|a t']; [congruence|]. cbn in E. injection E as -> _. inversion Hn'; subst. inversion Hw; subst. contradiction.
        - injection E as -> E. inversion Hw; subst. inversion Hw'; subst. destruct (IHw H2 w' H4 E) as [-> ->]. auto. }
      destruct Ew as [-> Et].
      assert (Er : t' = t /\ r' = r).
      { clear - Et Hn Hn' Hr Hr'. revert t Hn Et. induction t' as [|x t' IHt]; intros [|y t] Hn Et; cbn [app] in *.
        - auto.
        - exfalso. subst r'. destruct Hr' as [Hr'|(z & r'' & Hr' & Hz)]; [discriminate|]. injection Hr' as -> _. inversion Hn; subst. contradiction.
        - exfalso. subst r. destruct Hr as [Hr|(z & r'' & Hr & Hz)]; [discriminate|]. injection Hr as -> _. inversion Hn'; subst. contradiction.
        - injection Et as -> Et. inversion Hn; subst. inversion Hn'; subst. destruct (IHt H4 t H2 Et) as [-> ->]. auto. }
      destruct Er as [-> ->]. f_equal. apply IH. exact Hl'.
Qed.

(** split1 and rsplit1 *)
Lemma rfind_sub_some s d p : rfind_sub s d = Some p ->
  s = firstn p s ++ d ++ skipn (p + length d) s /\ (forall a b, s = a ++ d ++ b -> length a <= p).
Proof.
  revert p. induction s as [|x s IH]; intros p; cbn [rfind_sub].
  - destruct (prefixb d []) eqn:E; [|discriminate]. intros H; injection H as <-.
    apply prefixb_spec in E. destruct E as [r E]. symmetry in E. apply app_eq_nil in E. destruct E as [-> ->].
    cbn. split; [reflexivity|]. intros a b E. symmetry in E. apply app_eq_nil in E. destruct E as [-> _]. cbn. lia.
  - destruct (rfind_sub s d) as [q|] eqn:F.
    + intros H; injection H as <-. destruct (IH q eq_refl) as (A & C). split.
      * cbn [firstn plus skipn app]. congruence.
      * intros [|y a] b Ea; [cbn; lia|]. injection Ea as _ Ea. cbn. specialize (C a b Ea). lia.
    + destruct (prefixb d (x :: s)) eqn:E; [|discriminate]. intros H; injection H as <-.
      apply prefixb_spec in E. destruct E as [r E]. split.
      * rewrite E. cbn [firstn app length plus]. rewrite skipn_app_ge, Nat.sub_diag by lia. reflexivity.
      * intros [|y a] b Ea; [cbn; lia|]. exfalso. injection Ea as _ Ea.
        assert (G : forall s, rfind_sub s d = None -> ~ contains d s).
        { clear. induction s as [|z s IHs]; cbn [rfind_sub]; intros H [u [v E]].
          - symmetry in E. apply app_eq_nil in E. destruct E as [_ E]. apply app_eq_nil in E. destruct E as [-> _]. discriminate H.
          - destruct (rfind_sub s d) eqn:F; [discriminate|]. destruct (prefixb d (z :: s)) eqn:P; [discriminate|].
            destruct u as [|? u]; [assert (prefixb d (z :: s) = true) by (apply prefixb_spec; eexists; exact E); congruence|].
            injection E as _ E. apply IHs; [reflexivity|]. exists u, v. exact E. }
        apply (G s F). exists a, b. exact Ea.
Qed.
Lemma rfind_sub_none s d : rfind_sub s d = None -> ~ contains d s.
Proof.
  induction s as [|z s IHs]; cbn [rfind_sub]; intros H [u [v E]].
  - symmetry in E. apply app_eq_nil in E. destruct E as [_ E]. apply app_eq_nil in E. destruct E as [-> _]. discriminate H.
  - destruct (rfind_sub s d) eqn:F; [discriminate|]. destruct (prefixb d (z :: s)) eqn:P; [discriminate|].
    destruct u as [|? u]; [assert (prefixb d (z :: s) = true) by (apply prefixb_spec; eexists; exact E); congruence|].
    injection E as _ E. apply IHs; [reflexivity|]. exists u, v. exact E.
Qed.

Lemma split1_ok s d : let (a, b) := split1 s d in
  (s = a ++ d ++ b /\ (forall a' b', s = a' ++ d ++ b' -> length a <= length a')) \/ (~ contains d s /\ a = s /\ b = []).
Proof.
  unfold split1. destruct (find_sub s d) as [p|] eqn:F.
  - destruct (find_sub_some s d p F) as (A & B & C). left. split; [exact A|]. rewrite B. exact C.
  - right. split; [apply find_sub_none; exact F|auto].
Qed.
Lemma rsplit1_ok s d : let (a, b) := rsplit1 s d in
  (s = a ++ d ++ b /\ (forall a' b', s = a' ++ d ++ b' -> length a' <= length a)) \/ (~ contains d s /\ a = [] /\ b = s).
Proof.
  unfold rsplit1. destruct (rfind_sub s d) as [p|] eqn:F.
  - destruct (rfind_sub_some s d p F) as (A & C). left. split; [exact A|].
    intros a' b' E. specialize (C a' b' E). rewrite firstn_length.
    apply (f_equal (@length _)) in E. rewrite !app_length in E. lia.
  - right. split; [apply rfind_sub_none; exact F|auto].
Qed.

Lemma split1_ws_ok s : let (a, b) := split1_ws s in
  (exists w, s = a ++ w ++ b /\ w <> [] /\ all_in ws w /\ none_in ws a /\ (forall x r, b = x :: r -> ~ In x ws)) \/
  (none_in ws s /\ a = s /\ b = []).
Proof.
  unfold split1_ws. pose proof (find_first_spec (inb ws) s) as H. destruct (find_first (inb ws) s) as [p|].
  - destruct H as (x & A & B & C & D). destruct (ltrim_spec (skipn (p + 1) s) ws) as (w & A1 & B1 & C1).
    left. exists (x :: w). split; [rewrite A at 1; rewrite A1 at 1; reflexivity|]. split; [discriminate|].
    split; [constructor; [apply inb_In; exact C|exact B1]|]. split; [apply Forall_inb_false; exact D|exact C1].
  - right. split; [apply Forall_inb_false; exact H|auto].
Qed.
Lemma rsplit1_ws_ok s : let (a, b) := rsplit1_ws s in
  (exists x, s = a ++ x :: b /\ In x ws /\ none_in ws b) \/ (none_in ws s /\ a = [] /\ b = s).
Proof.
  unfold rsplit1_ws. pose proof (find_last_spec (inb ws) s) as H. destruct (find_last (inb ws) s) as [p|].
  - destruct H as (x & A & B & C & D). left.
    assert (E : rtrim (skipn (p + 1) s) ws = skipn (p + 1) s).
    { destruct (rtrim_spec (skipn (p + 1) s) ws) as (w & A1 & B1 & _). destruct w as [|y w]; [rewrite app_nil_r in A1; congruence|].
      exfalso. apply Forall_inb_false in D. rewrite A1 in D. apply Forall_app in D. destruct D as [_ D].
      inversion D; subst. inversion B1; subst. contradiction. }
    rewrite E. exists x. split; [exact A|]. split; [apply inb_In; exact C|apply Forall_inb_false; exact D].
  - right. split; [apply Forall_inb_false; exact H|auto].
Qed.

(** replace *)
Lemma replace_loop_ok fuel done s o n : o <> [] -> length s < fuel ->
  exists r, replace_loop fuel done s o n = Ok (done ++ r) /\ replaced o n s r.
Proof.
  intros Ho. revert done s. induction fuel as [|f IH]; intros done s Hf; [lia|]. cbn [replace_loop].
  destruct (find_sub s o) as [i|] eqn:F.
  - destruct (find_sub_some s o i F) as (A & B & C).
    assert (0 < length o) by (destruct o; [congruence|cbn; lia]).
    destruct (IH (done ++ firstn i s ++ n) (skipn (i + length o) s)) as (r & E & Hr).
    { apply (f_equal (@length _)) in A. rewrite !app_length in A. lia. }
    exists (firstn i s ++ n ++ r). rewrite E. split; [rewrite <- !app_assoc; reflexivity|].
    rewrite A at 1. apply replaced_step; [|exact Hr]. rewrite B. intros a' b' E2. apply (C a' b'). rewrite A. exact E2.
  - exists s. split; [reflexivity|]. constructor. apply find_sub_none. exact F.
Qed.

Lemma replace_ok s o n : o <> [] -> exists r, replace s o n = Ok r /\ replaced o n s r.
Proof.
  intros Ho. unfold replace. destruct o as [|x o]; [congruence|].
  destruct (replace_loop_ok (S (length s)) [] s (x :: o) n Ho ltac:(lia)) as (r & E & H). exists r. auto.
Qed.

Lemma replaced_unique o n s r1 : replaced o n s r1 -> forall r2, replaced o n s r2 -> r1 = r2.
Proof.
  induction 1 as [s Hs|a b r Ha Hr IH]; intros r2 H2.
  - inversion H2; subst; [reflexivity|]. exfalso. apply Hs. do 2 eexists. reflexivity.
  - inversion H2 as [s' Hs'|a' b' r' Ha' Hr' E]; subst.
    + exfalso. apply Hs'. do 2 eexists. reflexivity.
    + assert (La : length a = length a').
      { pose proof (Ha a' b' (eq_sym E)). pose proof (Ha' a b E). lia. }
      assert (a' = a /\ b' = b) as [-> ->].
      { assert (E2 : a' = a). { apply (f_equal (firstn (length a))) in E. rewrite !firstn_app_le in E by lia. rewrite !firstn_all2 in E by lia. exact E. }
        subst a'. apply app_inv_head in E. apply app_inv_head in E. auto. }
      f_equal. f_equal. apply IH. exact Hr'.
Qed.

Lemma starts_with_ok s p : starts_with s p = true <-> exists r, s = p ++ r.
Proof. apply prefixb_spec. Qed.
Lemma ends_with_ok s p : ends_with s p = true <-> exists r, s = r ++ p.
Proof.
  unfold ends_with. destruct (Nat.ltb_spec (length s) (length p)) as [L|L].
  - split; [discriminate|]. intros [r ->]. rewrite app_length in L. lia.
  - apply ends_test. exact L.
Qed.
