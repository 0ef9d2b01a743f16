(** Proofs for C24, C25, C26 and the search. *)
From Verif Require Import Base IntModel IntSpec IntProofs StrModel BytesModel BytesSpec.
Open Scope Z_scope.

Lemma sub_ok s from to : 0 <= from <= to -> to < 2 ^ 64 ->
  sub s from to = if from <=? blen s then Ok (slice s (Z.to_nat from) (Nat.min (Z.to_nat to) (length s))) else Throw OutOfRange.
Proof.
  intros H1 H2. unfold sub, std_substr. rewrite Z.mod_small by lia.
  destruct (Z.ltb_spec (blen s) from); destruct (Z.leb_spec from (blen s)); try lia; [reflexivity|].
  f_equal. unfold slice, blen in *. f_equal. lia.
Qed.

Lemma sub_inverted s from to : 0 <= to < from -> from <= blen s -> from - to <= 2 ^ 63 -> blen s < 2 ^ 63 ->
  sub s from to = Ok (skipn (Z.to_nat from) s).
Proof.
  intros H1 H2 H3 H4. unfold sub, std_substr. destruct (Z.ltb_spec (blen s) from); [lia|].
  assert (E : (to - from) mod 2 ^ 64 = to - from + 2 ^ 64).
  { symmetry. apply Z.mod_unique with (q := -1); lia. }
  rewrite E, Z.min_r by lia. f_equal. apply firstn_all2. rewrite skipn_length. unfold blen. lia.
Qed.

Lemma extract_ok s n : 0 <= n -> blen s < 2 ^ 63 ->
  extract s n = if n <=? blen s then Ok (firstn (Z.to_nat n) s, skipn (Z.to_nat n) s) else Throw InvalidArgument.
Proof.
  intros H1 H2. unfold extract. destruct (Z.ltb_spec (blen s) n); destruct (Z.leb_spec n (blen s)); try lia; [reflexivity|].
  rewrite sub_ok by lia. destruct (Z.leb_spec n (blen s)); [|lia]. cbn [bind]. f_equal. f_equal.
  unfold slice, blen in *. apply firstn_all2. rewrite skipn_length. lia.
Qed.

(** ** Text to integer *)
Lemma digit_plain b c : 2 <= b <= 36 -> is_byte c -> plain_char b c ->
  digit b c = match digit_value c with Some d => if d <? b then Some d else None | None => None end.
Proof.
  intros Hb Hc Hp. unfold digit, digit_value, plain_char, is_byte in *.
  destruct (Z.leb_spec 48 c), (Z.ltb_spec c (48 + b)), (Z.leb_spec c 57), (Z.leb_spec 97 c), (Z.ltb_spec c (97 - 10 + b)),
    (Z.leb_spec c 122), (Z.leb_spec 65 c), (Z.ltb_spec c (65 - 10 + b)), (Z.leb_spec c 90); cbn [andb]; try lia;
    repeat match goal with |- context [Z.ltb ?a ?b] => destruct (Z.ltb_spec a b) end; try lia; try reflexivity; f_equal; lia.
Qed.

Lemma digit_range b c d : digit b c = Some d -> 2 <= b -> 0 <= d.
Proof.
  unfold digit. intros H Hb. destruct ((48 <=? c) && (c <? 48 + b)) eqn:E1; [injection H as <-; lia|].
  destruct ((97 <=? c) && (c <? 97 - 10 + b)) eqn:E2; [injection H as <-; lia|].
  destruct ((65 <=? c) && (c <? 65 - 10 + b)) eqn:E3; [injection H as <-; lia|discriminate].
Qed.

(** Value of all digits with a given start value; [None] at the first non-digit. *)
Fixpoint dval (b n : Z) (s : bytes) : option Z :=
  match s with
  | [] => Some n
  | c :: s' => match digit b c with Some d => dval b (n * b + d) s' | None => None end
  end.

Lemma dval_mono b n s v : 2 <= b -> 0 <= n -> dval b n s = Some v -> n <= v.
Proof.
  intros Hb. revert n. induction s as [|c s IH]; intros n Hn; cbn [dval]; [intros H; injection H as <-; lia|].
  destruct (digit b c) as [d|] eqn:E; [|discriminate]. intros H. pose proof (digit_range b c d E Hb).
  specialize (IH (n * b + d) ltac:(nia) H). nia.
Qed.

Lemma digits_check mx b n d : 2 <= b -> 0 <= n <= mx -> mx < 2 ^ 64 -> 0 <= d < 2 ^ 63 ->
  ((mx / b <? n) || ((mx - (n * b) mod 2 ^ 64) mod 2 ^ 64 <? d)) = (mx <? n * b + d).
Proof.
  intros Hb Hn Hm Hd. pose proof (Z.div_mod mx b ltac:(lia)) as E. pose proof (Z.mod_pos_bound mx b ltac:(lia)) as R.
  destruct (Z.ltb_spec (mx / b) n) as [L|L]; cbn [orb].
  - destruct (Z.ltb_spec mx (n * b + d)); [reflexivity|nia].
  - assert (n * b <= mx) by nia. rewrite (Z.mod_small (n * b)) by lia. rewrite Z.mod_small by lia.
    destruct (Z.ltb_spec (mx - n * b) d), (Z.ltb_spec mx (n * b + d)); try lia; reflexivity.
Qed.

Lemma digits_loop_ok mx b s : 2 <= b <= 36 -> mx < 2 ^ 64 -> forall n, 0 <= n <= mx ->
  match dval b n s with
  | Some v => if v <=? mx then digits_loop b mx (mx / b) n s = Ok (v, length s) else digits_loop b mx (mx / b) n s = Throw OutOfRange
  | None => digits_loop b mx (mx / b) n s = Throw OutOfRange \/
            exists v k, digits_loop b mx (mx / b) n s = Ok (v, k) /\ (k < length s)%nat
  end.
Proof.
  intros Hb Hm. induction s as [|c s IH]; intros n Hn; cbn [dval digits_loop].
  - destruct (Z.leb_spec n mx); [reflexivity|lia].
  - destruct (digit b c) as [d|] eqn:E.
    + assert (Hd : 0 <= d < 2 ^ 63).
      { split; [apply (digit_range b c); [exact E|lia]|]. unfold digit in E.
        destruct ((48 <=? c) && (c <? 48 + b)) eqn:E1; [injection E as <-; lia|].
        destruct ((97 <=? c) && (c <? 97 - 10 + b)) eqn:E2; [injection E as <-; lia|].
        destruct ((65 <=? c) && (c <? 65 - 10 + b)) eqn:E3; [injection E as <-; lia|discriminate]. }
      rewrite (digits_check mx b n d) by lia. destruct (Z.ltb_spec mx (n * b + d)) as [L|L].
      * destruct (dval b (n * b + d) s) as [v|] eqn:Ev; [|left; reflexivity].
        assert (H0 : 0 <= n * b + d) by nia. pose proof (dval_mono b (n * b + d) s v ltac:(lia) H0 Ev). destruct (Z.leb_spec v mx); [lia|reflexivity].
      * rewrite Z.mod_small by nia. specialize (IH (n * b + d) ltac:(nia)).
        destruct (dval b (n * b + d) s) as [v|].
        -- destruct (v <=? mx); rewrite IH; reflexivity.
        -- destruct IH as [->|(v & k & -> & Hk)]; [left; reflexivity|right]. exists v, (S k). split; [reflexivity|cbn; lia].
    + right. exists n, 0%nat. split; [reflexivity|cbn; lia].
Qed.

Lemma dval_app b n s c : dval b n (s ++ [c]) =
  match dval b n s with Some v => match digit b c with Some d => Some (v * b + d) | None => None end | None => None end.
Proof.
  revert n. induction s as [|x s IH]; intros n; cbn [app dval]; [reflexivity|].
  destruct (digit b x); [apply IH|reflexivity].
Qed.

Lemma dval_digits b s v : 2 <= b <= 36 -> Forall is_byte s -> Forall (plain_char b) s -> s <> [] ->
  (dval b 0 s = Some v <-> digits b s v).
Proof.
  intros Hb. revert v. induction s as [|c s IH] using rev_ind; intros v HF HP Hs; [congruence|].
  apply Forall_app in HF, HP. destruct HF as [HF HFc], HP as [HP HPc]. inversion HFc; subst. inversion HPc; subst.
  rewrite dval_app, (digit_plain b c) by assumption. split.
  - intros E. destruct (dval b 0 s) as [u|] eqn:Eu; [|discriminate].
    destruct (digit_value c) as [d|] eqn:Ed; [|discriminate]. destruct (Z.ltb_spec d b); [|discriminate]. injection E as <-.
    destruct s as [|x s].
    + cbn in Eu. injection Eu as <-. cbn [app]. replace (0 * b + d) with d by lia. constructor; assumption.
    + apply digits_more; auto. apply IH; auto. discriminate.
  - intros E. inversion E as [c' d Ed Hd Es|s' c' u d Eu Ed Hd Es]; subst.
    + change [c'] with ([] ++ [c'])%list in Es. apply app_inj_tail in Es. destruct Es as [<- ->]. cbn [dval]. rewrite Ed.
      destruct (Z.ltb_spec v b); [|lia]. f_equal; lia.
    + apply app_inj_tail in Es. destruct Es as [-> ->]. rewrite Ed. destruct (Z.ltb_spec d b); [|lia].
      assert (Hs' : s <> []) by (intros ->; inversion Eu; match goal with H : _ ++ [_] = [] |- _ => destruct (app_cons_not_nil _ _ _ (eq_sym H)) end).
      rewrite (proj2 (IH u HF HP Hs')) by exact Eu. reflexivity.
Qed.

Lemma sign_not_digit c : digit_value c <> None -> c <> 43 /\ c <> 45.
Proof. intros H. split; intros ->; apply H; reflexivity. Qed.

Lemma digits_head b s v : digits b s v -> exists c r, s = c :: r /\ digit_value c <> None.
Proof.
  induction 1 as [c d H|s c v d Hs IH H]; [exists c, []; split; [reflexivity|congruence]|].
  destruct IH as (x & r & -> & Hx). exists x, (r ++ [c]). split; [reflexivity|exact Hx].
Qed.

Lemma digits_val_nonneg b s v : 2 <= b -> digits b s v -> 0 <= v.
Proof.
  intros Hb. assert (G : forall c d, digit_value c = Some d -> 0 <= d).
  { intros c d. unfold digit_value. destruct ((48 <=? c) && (c <=? 57)) eqn:E1; [intros H; injection H as <-; lia|].
    destruct ((97 <=? c) && (c <=? 122)) eqn:E2; [intros H; injection H as <-; lia|].
    destruct ((65 <=? c) && (c <=? 90)) eqn:E3; [intros H; injection H as <-; lia|discriminate]. }
  induction 1 as [c d H|s c v d Hs IH H]; [eauto|]. specialize (G c d H). nia.
Qed.

(** Outcome of [atoi_s64], for plain strings. *)
Definition magnitude (s : bytes) : bytes := match s with c :: s' => if (c =? 45) || (c =? 43) then s' else s | [] => [] end.
Definition is_neg (s : bytes) : bool := match s with c :: _ => c =? 45 | [] => false end.

Lemma atoi_raw b s : 2 <= b <= 36 -> s <> [] -> blen s <= 255 ->
  match dval b 0 (magnitude s) with
  | Some v => if v <=? 2 ^ 63 then
                atoi_s64 s b = Ok (Some (cast_s64 (if is_neg s then (0 - v) mod 2 ^ 64 else v)), blen s)
              else atoi_s64 s b = Throw OutOfRange
  | None => atoi_s64 s b = Throw OutOfRange \/ exists v k, atoi_s64 s b = Ok (v, k) /\ k <> blen s
  end.
Proof.
  intros Hb Hs HL. unfold atoi_s64, atoi_n. destruct (Z.ltb_spec b 2); [lia|]. destruct (Z.ltb_spec 36 b); [lia|]. cbn [orb].
  destruct s as [|c s]; [congruence|]. cbn [is_neg].
  set (sg := if c =? 45 then 1%nat else if c =? 43 then 1%nat else 0%nat).
  assert (Em : skipn sg (c :: s) = magnitude (c :: s)).
  { unfold sg, magnitude. destruct (c =? 45), (c =? 43); reflexivity. }
  rewrite Em. pose proof (digits_loop_ok (2 ^ 63) b (magnitude (c :: s)) Hb ltac:(lia) 0 ltac:(lia)) as D.
  assert (El : (sg + length (magnitude (c :: s)) = length (c :: s))%nat).
  { unfold sg, magnitude. destruct (c =? 45), (c =? 43); cbn; lia. }
  set (m := magnitude (c :: s)) in *. destruct (dval b 0 m) as [v|].
  - destruct (v <=? 2 ^ 63); rewrite D; [|reflexivity]. cbn [bind fst snd]. rewrite El. cbn [length Nat.eqb].
    f_equal. f_equal. unfold blen in *. cbn [length] in *. apply Z.mod_small. lia.
  - destruct D as [->|(v & k & -> & Hk)]; [left; reflexivity|right]. cbn [bind fst snd].
    destruct (Nat.eqb_spec (sg + k) 0).
    + eexists _, _. split; [reflexivity|]. unfold blen. cbn [length]. lia.
    + eexists _, _. split; [reflexivity|]. unfold blen in *. cbn [length] in *. rewrite Z.mod_small by lia. lia.
Qed.

Lemma numeral_iff b s v : 2 <= b <= 36 -> Forall is_byte s -> Forall (plain_char b) s -> magnitude s <> [] ->
  (numeral b s v <-> exists u, dval b 0 (magnitude s) = Some u /\ v = if is_neg s then - u else u).
Proof.
  intros Hb HF HP Hm.
  assert (HFm : Forall is_byte (magnitude s) /\ Forall (plain_char b) (magnitude s)).
  { destruct s as [|c s]; [cbn in Hm; congruence|]. unfold magnitude. inversion HF; inversion HP; subst. destruct ((c =? 45) || (c =? 43)); auto. }
  destruct HFm as [HF1 HP1]. split.
  - intros H. inversion H as [s' u Hd|s' u Hd|s' u Hd]; subst.
    + destruct (digits_head _ _ _ Hd) as (c & r & -> & Hc). apply sign_not_digit in Hc. destruct Hc as [N1 N2].
      assert (E : magnitude (c :: r) = c :: r /\ is_neg (c :: r) = false).
      { unfold magnitude, is_neg. apply Z.eqb_neq in N1, N2. rewrite N1, N2. auto. }
      destruct E as [E1 E2]. rewrite E1, E2 in *. exists v. split; [|reflexivity]. apply dval_digits; auto.
    + cbn [magnitude Z.eqb Pos.eqb orb is_neg] in *. exists v. split; [apply dval_digits; auto|reflexivity].
    + cbn [magnitude Z.eqb Pos.eqb orb is_neg] in *. exists u. split; [apply dval_digits; auto|reflexivity].
  - intros (u & Hu & ->). apply dval_digits in Hu; auto. destruct s as [|c s]; [cbn in Hm; congruence|].
    unfold magnitude, is_neg in *. destruct (Z.eqb_spec c 45) as [->|N1]; cbn [orb] in *; [constructor; exact Hu|].
    destruct (Z.eqb_spec c 43) as [->|N2]; constructor; exact Hu.
Qed.

Lemma to_int_ok b s : 2 <= b <= 36 -> Forall is_byte s -> Forall (plain_char b) s -> blen s <= 255 ->
  s <> [43] -> s <> [45] -> ~ numeral b s (2 ^ 63) ->
  to_int s b <> UB /\ forall v, to_int s b = Ok v <-> numeral b s v /\ - 2 ^ 63 <= v < 2 ^ 63.
Proof.
  intros Hb HF HP HL N1 N2 N3. unfold to_int. rewrite Z.mod_small by lia.
  destruct s as [|c s].
  { assert (E : atoi_s64 [] b = Throw InvalidArgument).
    { unfold atoi_s64, atoi_n. destruct (Z.ltb_spec b 2); [lia|]. destruct (Z.ltb_spec 36 b); [lia|reflexivity]. }
    rewrite E. cbn [bind]. split; [discriminate|]. intros v. split; [discriminate|]. intros [H _]. exfalso.
    inversion H as [s u Hd| |]; subst. destruct (digits_head _ _ _ Hd) as (x & r & Ex & _). discriminate. }
  assert (Hm : magnitude (c :: s) <> []).
  { unfold magnitude. destruct (Z.eqb_spec c 45) as [->|]; cbn [orb]; [intros ->; apply N2; reflexivity|].
    destruct (Z.eqb_spec c 43) as [->|]; cbn [orb]; [intros ->; apply N1; reflexivity|discriminate]. }
  pose proof (fun v => numeral_iff b (c :: s) v Hb HF HP Hm) as NI.
  pose proof (atoi_raw b (c :: s) Hb ltac:(discriminate) HL) as A.
  destruct (dval b 0 (magnitude (c :: s))) as [u|] eqn:Eu.
  - pose proof (dval_mono b 0 _ u ltac:(lia) ltac:(lia) Eu) as Hu.
    destruct (Z.leb_spec u (2 ^ 63)) as [L|L]; rewrite A.
    + cbn [bind fst snd]. rewrite Z.eqb_refl. split; [discriminate|]. intros v. rewrite NI.
      assert (Hx : u < 2 ^ 63 \/ is_neg (c :: s) = true).
      { destruct (is_neg (c :: s)) eqn:En; [auto|left]. destruct (Z.eq_dec u (2 ^ 63)) as [->|]; [|lia].
        exfalso. apply N3. apply NI. exists (2 ^ 63). auto. }
      assert (C : cast_s64 (if is_neg (c :: s) then (0 - u) mod 2 ^ 64 else u) = if is_neg (c :: s) then - u else u).
      { unfold cast_s64. destruct (is_neg (c :: s)).
        - destruct (Z.eq_dec u 0) as [->|]; [reflexivity|].
          assert (E : (0 - u) mod 2 ^ 64 = 2 ^ 64 - u) by (symmetry; apply Z.mod_unique with (q := -1); lia).
          rewrite E. destruct (Z.ltb_spec (2 ^ 64 - u) (2 ^ 63)); lia.
        - destruct Hx as [Hx|Hx]; [|discriminate]. destruct (Z.ltb_spec u (2 ^ 63)); lia. }
      rewrite C. split.
      * intros E. assert (Ev : v = if is_neg (c :: s) then - u else u) by congruence. subst v. split; [exists u; auto|]. destruct (is_neg (c :: s)); [lia|]. destruct Hx as [Hx|Hx]; [lia|discriminate].
      * intros [(u' & E & ->) R]. assert (u' = u) by congruence. subst u'. reflexivity.
    + cbn [bind]. split; [discriminate|]. intros v. rewrite NI. split; [discriminate|].
      intros [(u' & E & ->) R]. assert (u' = u) by congruence. subst u'. destruct (is_neg (c :: s)); lia.
  - assert (X : forall v, ~ numeral b (c :: s) v).
    { intros v H. apply NI in H. destruct H as (u & H & _). discriminate. }
    destruct A as [->|(v & k & -> & Hk)]; cbn [bind fst snd].
    + split; [discriminate|]. intros w. split; [discriminate|]. intros [H _]. destruct (X w H).
    + apply Z.eqb_neq in Hk. rewrite Hk. split; [discriminate|]. intros w. split; [discriminate|]. intros [H _]. destruct (X w H).
Qed.

Lemma to_uint_of_int s b : to_uint s b = let* v := to_int s b in safe_u64 v.
Proof.
  unfold to_uint, to_int. destruct (atoi_s64 s (b mod 256)) as [[v k]| |]; cbn [bind fst snd]; try reflexivity.
  destruct (k =? blen s); reflexivity.
Qed.

Lemma to_uint_ok b s : 2 <= b <= 36 -> Forall is_byte s -> Forall (plain_char b) s -> blen s <= 255 ->
  s <> [43] -> s <> [45] ->
  to_uint s b <> UB /\ forall v, to_uint s b = Ok v <-> numeral b s v /\ 0 <= v < 2 ^ 63.
Proof.
  intros Hb HF HP HL N1 N2. rewrite to_uint_of_int.
  destruct (Z.eq_dec 0 0) as [_|]; [|congruence].
  assert (D : numeral b s (2 ^ 63) \/ ~ numeral b s (2 ^ 63)).
  { destruct (magnitude s) as [|c m] eqn:Em.
    - right. intros H. inversion H as [s' u Hd|s' u Hd|s' u Hd]; subst; destruct (digits_head _ _ _ Hd) as (x & r & -> & Hx).
      + apply sign_not_digit in Hx. destruct Hx as [X1 X2]. unfold magnitude in Em. apply Z.eqb_neq in X1, X2.
        rewrite X1, X2 in Em. discriminate.
      + discriminate.
      + discriminate.
    - assert (Hm : magnitude s <> []) by (rewrite Em; discriminate). pose proof (numeral_iff b s (2 ^ 63) Hb HF HP Hm) as NI.
      destruct (dval b 0 (magnitude s)) as [u|] eqn:Eu.
      + destruct (Z.eq_dec (2 ^ 63) (if is_neg s then - u else u)) as [E|E].
        * left. apply NI. exists u. auto.
        * right. intros H. apply NI in H. destruct H as (u' & E1 & E2). assert (u' = u) by congruence. subst u'. exact (E E2).
      + right. intros H. apply NI in H. destruct H as (u' & E1 & E2). discriminate. }
  destruct D as [D|D].
  - (* 2^63: the signed conversion gives INT64_MIN *)
    assert (Hm : magnitude s <> []).
    { intros Em. inversion D as [s' u Hd|s' u Hd|s' u Hd]; subst; destruct (digits_head _ _ _ Hd) as (x & r & -> & Hx); try discriminate.
      apply sign_not_digit in Hx. destruct Hx as [X1 X2]. unfold magnitude in Em. apply Z.eqb_neq in X1, X2.
      rewrite X1, X2 in Em. discriminate. }
    apply (numeral_iff b s) in D; auto. destruct D as (u & Eu & Ev).
    pose proof (dval_mono b 0 _ u ltac:(lia) ltac:(lia) Eu) as Hu. destruct (is_neg s) eqn:En; [lia|]. subst u.
    assert (Hs : s <> []) by (intros ->; cbn in Hm; congruence).
    pose proof (atoi_raw b s Hb Hs HL) as A. rewrite Eu in A. rewrite Z.leb_refl in A. rewrite En in A.
    unfold to_int. rewrite Z.mod_small by lia. rewrite A. cbn [bind fst snd]. rewrite Z.eqb_refl. cbn [bind].
    change (cast_s64 (2 ^ 63)) with (- 2 ^ 63). split; [discriminate|]. intros v. split; [discriminate|]. intros [H R].
    apply (numeral_iff b s v Hb HF HP Hm) in H. destruct H as (u & E1 & ->). rewrite E1 in Eu. injection Eu as ->. rewrite En in R. lia.
  - destruct (to_int_ok b s Hb HF HP HL N1 N2 D) as [U H]. split.
    + destruct (to_int s b) as [v| |]; cbn [bind]; try discriminate; [|congruence]. unfold safe_u64. destruct (v <? 0); discriminate.
    + intros v. destruct (to_int s b) as [w|e|] eqn:E; cbn [bind].
      * unfold safe_u64. specialize (H w). destruct (proj1 H eq_refl) as [H1 H2]. destruct (Z.ltb_spec w 0).
        -- split; [discriminate|]. intros [H3 H4]. exfalso. assert (Hv : Ok w = Ok v) by (rewrite <- E; apply to_int_ok; auto; split; [auto|lia]).
           injection Hv as ->. lia.
        -- split; [intros X; injection X as <-; split; [auto|lia]|]. intros [H3 H4].
           rewrite <- E. apply to_int_ok; auto. split; [auto|lia].
      * split; [discriminate|]. intros [H3 H4]. specialize (H v). assert (X : Throw e = Ok v) by (apply H; split; [auto|lia]). discriminate.
      * congruence.
Qed.

(** ** Text to integer: all inputs *)
Lemma digit_reads b c d : digit b c = Some d <-> reads_as b c d.
Proof.
  unfold digit, reads_as.
  destruct ((48 <=? c) && (c <? 48 + b)) eqn:E1; [split; [intros H; injection H as <-; lia|intros H; f_equal; lia]|].
  destruct ((97 <=? c) && (c <? 97 - 10 + b)) eqn:E2; [split; [intros H; injection H as <-; lia|intros H; f_equal; lia]|].
  destruct ((65 <=? c) && (c <? 65 - 10 + b)) eqn:E3; [split; [intros H; injection H as <-; lia|intros H; f_equal; lia]|].
  split; [discriminate|intros H; lia].
Qed.

Lemma dval_reads b s v : dval b 0 s = Some v <-> reads b s v.
Proof.
  revert v. induction s as [|c s IH] using rev_ind; intros v.
  - cbn [dval]. split; [intros H; injection H as <-; constructor|].
    intros H. inversion H as [|s c u d Hs Hc E1]; subst; [reflexivity|]. destruct s; discriminate.
  - rewrite dval_app. split.
    + destruct (dval b 0 s) as [u|]; [|discriminate]. destruct (digit b c) as [d|] eqn:E; [|discriminate].
      intros H. injection H as <-. constructor; [apply IH; reflexivity|apply digit_reads; exact E].
    + intros H. inversion H as [E|s' c' u d Hs Hc E1 E2]; [destruct s; discriminate|].
      apply app_inj_tail in E1. destruct E1 as [-> ->]. apply IH in Hs. rewrite Hs. apply digit_reads in Hc. rewrite Hc. reflexivity.
Qed.

Lemma signed_eq s : signed s = (is_neg s, magnitude s).
Proof. destruct s as [|c s]; [reflexivity|]. cbn. destruct (Z.eqb_spec c 45) as [->|]; [reflexivity|]. destruct (c =? 43); reflexivity. Qed.

Lemma atoi_not_all b s v k : atoi_s64 s b = Ok (v, k) -> k = blen s -> blen s <= 255.
Proof.
  unfold atoi_s64, atoi_n. intros H ->. destruct ((b <? 2) || (36 <? b)); [discriminate|].
  destruct s as [|c s]; [discriminate|]. destruct (digits_loop _ _ _ _ _) as [[n j]| |]; cbn [bind fst snd] in H; try discriminate.
  destruct (_ =? 0)%nat; injection H as _ H; [lia|]. rewrite <- H. match goal with |- ?a mod 256 <= _ => pose proof (Z.mod_pos_bound a 256 ltac:(lia)) end. lia.
Qed.

Lemma digits_loop_no_ub b mx mxd s : forall n, digits_loop b mx mxd n s <> UB.
Proof.
  induction s as [|c s IH]; intros n; cbn [digits_loop]; [discriminate|]. destruct (digit b c); [|discriminate].
  destruct (_ || _); [discriminate|]. specialize (IH ((n * b + z) mod 2 ^ 64)).
  destruct (digits_loop b mx mxd ((n * b + z) mod 2 ^ 64) s); cbn [bind]; congruence.
Qed.

Lemma to_int_exact b s : 0 <= b ->
  to_int s b <> UB /\
  forall v, to_int s b = Ok v <->
    2 <= b mod 256 <= 36 /\ 1 <= blen s <= 255 /\
    exists u, reads (b mod 256) (snd (signed s)) u /\ u <= 2 ^ 63 /\
      v = if fst (signed s) then - u else if u =? 2 ^ 63 then - 2 ^ 63 else u.
Proof.
  intros Hb0. unfold to_int. set (b' := b mod 256). rewrite signed_eq. cbn [fst snd]. split.
  { destruct (atoi_s64 s b') as [[v k]| |] eqn:E; cbn [bind fst snd]; [destruct (k =? blen s); discriminate|discriminate|].
    exfalso. unfold atoi_s64, atoi_n in E. destruct ((b' <? 2) || (36 <? b')); [discriminate|]. destruct s as [|c s]; [discriminate|].
    pose proof (digits_loop_no_ub b' (2 ^ 63) (2 ^ 63 / b') (skipn (if c =? 45 then 1 else if c =? 43 then 1 else 0) (c :: s)) 0) as U.
    destruct (digits_loop _ _ _ _ _) as [[n j]| |]; cbn [bind fst snd] in E; [destruct (_ =? 0)%nat; discriminate|discriminate|congruence]. }
  intros v. split.
  - intros H. destruct (atoi_s64 s b') as [[w k]| |] eqn:E; cbn [bind fst snd] in H; [|discriminate|discriminate].
    destruct (Z.eqb_spec k (blen s)) as [Ek|]; [|discriminate].
    pose proof (atoi_not_all _ _ _ _ E Ek) as HL.
    assert (Hb : 2 <= b' <= 36).
    { unfold atoi_s64, atoi_n in E. destruct (Z.ltb_spec b' 2); [discriminate|]. destruct (Z.ltb_spec 36 b'); [discriminate|]. lia. }
    assert (Hs : s <> []). { intros ->. unfold atoi_s64, atoi_n in E. destruct ((b' <? 2) || (36 <? b')); discriminate. }
    split; [exact Hb|]. split; [destruct s; [congruence|]; unfold blen in *; cbn [length] in *; lia|].
    pose proof (atoi_raw b' s Hb Hs HL) as A. destruct (dval b' 0 (magnitude s)) as [u|] eqn:Eu.
    + pose proof (dval_mono b' 0 _ u ltac:(lia) ltac:(lia) Eu) as Hu.
      destruct (Z.leb_spec u (2 ^ 63)) as [L|L]; [|congruence]. exists u. split; [apply dval_reads; exact Eu|]. split; [exact L|].
      rewrite E in A. assert (Ha : forall (x y : option Z) (i j : Z), Ok (x, i) = Ok (y, j) -> x = y /\ i = j) by (intros; split; congruence). apply Ha in A. destruct A as [-> _]. cbv iota beta in H. assert (Hv : forall x y : Z, Ok x = Ok y -> x = y) by congruence. apply Hv in H. subst v.
      unfold cast_s64. destruct (is_neg s).
      * destruct (Z.eq_dec u 0) as [->|]; [reflexivity|].
        assert (Em : (0 - u) mod 2 ^ 64 = 2 ^ 64 - u) by (symmetry; apply Z.mod_unique with (q := -1); lia).
        rewrite Em. destruct (Z.ltb_spec (2 ^ 64 - u) (2 ^ 63)); lia.
      * destruct (Z.ltb_spec u (2 ^ 63)), (Z.eqb_spec u (2 ^ 63)); lia.
    + destruct A as [A|(w' & k' & A & Hk)]; congruence.
  - intros (Hb & HL & u & Hr & Hu & ->). apply dval_reads in Hr.
    assert (Hs : s <> []) by (intros ->; unfold blen in HL; cbn in HL; lia).
    pose proof (atoi_raw b' s Hb Hs ltac:(lia)) as A. rewrite Hr in A.
    pose proof (dval_mono b' 0 _ u ltac:(lia) ltac:(lia) Hr) as Hu0.
    destruct (Z.leb_spec u (2 ^ 63)); [|lia]. rewrite A. cbn [bind fst snd]. rewrite Z.eqb_refl. f_equal.
    unfold cast_s64. destruct (is_neg s).
    + destruct (Z.eq_dec u 0) as [->|]; [reflexivity|].
      assert (Em : (0 - u) mod 2 ^ 64 = 2 ^ 64 - u) by (symmetry; apply Z.mod_unique with (q := -1); lia).
      rewrite Em. destruct (Z.ltb_spec (2 ^ 64 - u) (2 ^ 63)); lia.
    + destruct (Z.ltb_spec u (2 ^ 63)), (Z.eqb_spec u (2 ^ 63)); lia.
Qed.

Lemma reads_nonneg b s u : 2 <= b -> reads b s u -> 0 <= u.
Proof. intros Hb. induction 1 as [|s c v d Hs IH Hd]; [lia|]. unfold reads_as in Hd. nia. Qed.

Lemma to_uint_exact b s : 0 <= b ->
  to_uint s b <> UB /\
  forall v, to_uint s b = Ok v <->
    2 <= b mod 256 <= 36 /\ 1 <= blen s <= 255 /\
    exists u, reads (b mod 256) (snd (signed s)) u /\ v = u /\ if fst (signed s) then u = 0 else u < 2 ^ 63.
Proof.
  intros Hb. destruct (to_int_exact b s Hb) as [U H]. rewrite to_uint_of_int. split.
  { destruct (to_int s b); cbn [bind]; [unfold safe_u64; destruct (_ <? 0); discriminate|discriminate|congruence]. }
  intros v. split.
  - intros E. destruct (to_int s b) as [w| |] eqn:Ei; cbn [bind] in E; [|discriminate|discriminate].
    destruct (proj1 (H w) eq_refl) as (B & L & u & R & Hu & Hw). split; [exact B|]. split; [exact L|]. exists u. split; [exact R|].
    pose proof (reads_nonneg _ _ _ (proj1 B) R) as Hn.
    unfold safe_u64 in E. destruct (Z.ltb_spec w 0); [discriminate|]. assert (v = w) by congruence. subst v.
    destruct (fst (signed s)); [lia|]. destruct (Z.eqb_spec u (2 ^ 63)); lia.
  - intros (B & L & u & R & -> & C). pose proof (reads_nonneg _ _ _ (proj1 B) R) as Hn.
    assert (E : to_int s b = Ok u).
    { apply H. split; [exact B|]. split; [exact L|]. exists u. split; [exact R|].
      destruct (fst (signed s)); [subst u; split; [lia|reflexivity]|]. split; [lia|]. destruct (Z.eqb_spec u (2 ^ 63)); lia. }
    rewrite E. cbn [bind]. unfold safe_u64. destruct (Z.ltb_spec u 0); [lia|reflexivity].
Qed.
