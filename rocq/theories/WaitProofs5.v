From Verif Require Import Base StreamModel StreamSpec StreamProofs StreamProofs2 ViewModel ViewSpec
  ViewProofs ViewProofs2 ViewProofs3 ViewProofs4 WaitModel WaitSpec WaitProofs WaitProofs2 WaitProofs3 WaitProofs4.

Lemma skipn_plus {A} a b (l : list A) : skipn b (skipn a l) = skipn (a + b) l.
Proof. revert l. induction a as [|a IH]; intros l; [reflexivity|]. destruct l; [rewrite !skipn_nil; reflexivity|]. cbn. apply IH. Qed.

Definition have (n : nat) : nat := if 0 <? n then 1 else 0.

Section Frames.
Context {X : list frame}.
Local Notation pin := (pin (X := X)).
Local Notation fmeets := (fmeets (X := X)).

Lemma chunked_ok trim closed hi : forall fuel acc v ch sched D lo, pin v ch sched D closed lo hi ->
  length sched + have (v_size ch v) < fuel ->
  match as_bytes D with
  | None => exists ch' rest, chunked_loop fuel trim acc v ch sched = Finished (Throw MissingData) ch' rest
  | Some bs => if closed then exists acc' v' ch' rest, chunked_loop fuel trim acc v ch sched = Finished (Ok (acc', v')) ch' rest /\
                               concat acc' = concat acc ++ bs /\ pin v' ch' rest [] closed (lo + length D) hi
               else exists ch', chunked_loop fuel trim acc v ch sched = Suspended ch'
  end.
Proof.
  induction fuel as [|fuel IH]; intros acc v ch sched D lo I L; [lia|].
  cbn [chunked_loop]. rewrite wait_or_eod_wm.
  destruct (wait_cases (Some 1) v ch sched D closed lo hi I) as [(ch' & rest & -> & I' & R & Lr & Lq)|[(ch' & rest & -> & I' & Sz & R & -> & _ & Fz)|(ch' & -> & R & ->)]];
    cbn [obind reached] in *.
  - apply Nat.leb_le in R. destruct (pin_now _ _ _ _ _ _ _ I') as (os & q & P & [Np Ns No] & _). pose proof (pv_view _ _ _ _ _ _ P) as V.
    destruct (Nat.ltb_spec 0 (v_size ch' v)) as [Hs|Hs]; [|lia].
    unfold lift. rewrite (v_data_spec _ _ _ _ _ _ V (pv_inside _ _ _ _ _ _ P) (pv_ordered _ _ _ _ _ _ P)).
    destruct Np as [more ED]. rewrite ED, as_bytes_app. unfold data_res.
    destruct (as_bytes (window q lo hi)) as [bs|] eqn:Eb; cbn [obind]; [|eauto].
    destruct (advance_pin trim (v_size ch' v) _ _ _ _ _ _ _ I') as (v' & ch'' & -> & I'' & Sz''); [left; lia|]. cbn [obind].
    rewrite Ns in I''. rewrite ED in I''. rewrite skipn_app, skipn_all, Nat.sub_diag in I''. cbn [app skipn] in I''.
    specialize (Sz'' (le_n _)). rewrite Nat.sub_diag in Sz''.
    assert (B : length rest + have (v_size ch'' v') < fuel).
    { rewrite Sz''. cbn [have Nat.ltb Nat.leb]. unfold have in L. destruct (Nat.eq_dec (length rest) (length sched)) as [E|E].
      - destruct (Lq E) as [-> ->]. destruct (Nat.ltb_spec 0 (v_size ch v)); lia.
      - destruct (0 <? v_size ch v); lia. }
    specialize (IH (acc ++ [bs]) v' ch'' rest more (lo + length (window q lo hi)) I'' B).
    destruct (as_bytes more) as [bs2|]; [|exact IH]. destruct closed; [|exact IH].
    destruct IH as (acc' & v2 & ch2 & rest2 & -> & Ec & I2). exists acc', v2, ch2, rest2. split; [reflexivity|].
    rewrite Ec, concat_app. cbn [concat]. rewrite app_nil_r, app_assoc. split; [reflexivity|].
    rewrite app_length, Nat.add_assoc. exact I2.
  - apply Nat.leb_gt in R. assert (D = []) as -> by (destruct D; [reflexivity|cbn in R; lia]). cbn [as_bytes].
    rewrite Sz. cbn [length Nat.ltb Nat.leb obind]. exists acc, v, ch', rest. rewrite app_nil_r, Nat.add_0_r. auto.
  - apply Nat.leb_gt in R. assert (D = []) as -> by (destruct D; [reflexivity|cbn in R; lia]). cbn [as_bytes]. eauto.
Qed.

Lemma skip_ok trim closed hi : forall fuel n v ch sched D lo, pin v ch sched D closed lo hi ->
  n = 0 \/ length sched + have (v_size ch v) < fuel ->
  match need n D closed (FOk [] n) with
  | FOk _ k => exists v' ch' rest, skip_loop fuel trim n v ch sched = Finished (Ok v') ch' rest /\ pin v' ch' rest (skipn k D) closed (lo + k) hi
  | FFail e => exists ch' rest, skip_loop fuel trim n v ch sched = Finished (Throw e) ch' rest
  | FWait => exists ch', skip_loop fuel trim n v ch sched = Suspended ch'
  end.
Proof.
  induction fuel as [|fuel IH]; intros n v ch sched D lo I L.
  - destruct L as [->|L]; [|lia]. cbn. rewrite Nat.add_0_r. eauto.
  - cbn [skip_loop]. destruct (Nat.eqb_spec n 0) as [->|Hn]; [cbn; rewrite Nat.add_0_r; eauto|].
    destruct L as [?|L]; [lia|]. rewrite wait_for_input_wm.
    destruct (wait_cases (Some 1) v ch sched D closed lo hi I) as [(ch' & rest & -> & I' & R & Lr & Lq)|[(ch' & rest & -> & I' & Sz & R & -> & _ & Fz)|(ch' & -> & R & ->)]];
      cbn [obind reached] in *.
    + apply Nat.leb_le in R. destruct (pin_now _ _ _ _ _ _ _ I') as (os & q & P & [Np Ns No] & _). pose proof (prefix_le _ _ Np) as LD.
      set (c := Nat.min (v_size ch' v) n) in *.
      destruct (advance_pin trim c _ _ _ _ _ _ _ I') as (v' & ch'' & -> & I'' & Sz''); [left; lia|]. cbn [obind].
      specialize (Sz'' ltac:(lia)).
      assert (B : n - c = 0 \/ length rest + have (v_size ch'' v') < fuel).
      { destruct (Nat.eq_dec (n - c) 0) as [|Hc]; [left; assumption|right]. rewrite Sz''.
        replace (v_size ch' v - c) with 0 by lia. cbn [have Nat.ltb Nat.leb].
        unfold have in L. destruct (Nat.eq_dec (length rest) (length sched)) as [E|E].
        - destruct (Lq E) as [-> ->]. destruct (Nat.ltb_spec 0 (v_size ch v)); lia.
        - destruct (0 <? v_size ch v); lia. }
      specialize (IH (n - c) v' ch'' rest (skipn c D) (lo + c) I'' B).
      unfold need in *. rewrite skipn_length in IH.
      destruct (Nat.leb_spec (n - c) (length D - c)), (Nat.leb_spec n (length D)); try lia.
      * rewrite skipn_plus in IH. rewrite <- Nat.add_assoc in IH. replace (c + (n - c)) with n in IH by lia. exact IH.
      * destruct closed; exact IH.
    + apply Nat.leb_gt in R. unfold need. destruct (Nat.leb_spec n (length D)); [lia|]. eauto.
    + apply Nat.leb_gt in R. unfold need. destruct (Nat.leb_spec n (length D)); [lia|]. eauto.
Qed.

Lemma skip_eod_ok trim closed hi : forall fuel v ch sched D lo, pin v ch sched D closed lo hi -> length sched < fuel ->
  if closed then exists v' ch' rest, skip_eod_loop fuel trim v ch sched = Finished (Ok v') ch' rest /\ pin v' ch' rest [] closed (lo + length D) hi
  else exists ch', skip_eod_loop fuel trim v ch sched = Suspended ch'.
Proof.
  induction fuel as [|fuel IH]; intros v ch sched D lo I L; [lia|]. cbn [skip_eod_loop]. rewrite (wait_change_wm _ _ _ _ _ _ _ I).
  destruct (wait_cases (Some (S (v_size ch v))) v ch sched D closed lo hi I) as [(ch' & rest & -> & I' & R & Lr & Lq)|[(ch' & rest & -> & I' & Sz & R & -> & _ & Fz)|(ch' & -> & R & ->)]];
    cbn [obind reached] in *.
  - apply Nat.leb_le in R. destruct (pin_now _ _ _ _ _ _ _ I') as (os & q & P & [Np Ns No] & _). pose proof (prefix_le _ _ Np) as LD.
    destruct (advance_pin trim (v_size ch' v) _ _ _ _ _ _ _ I') as (v' & ch'' & -> & I'' & Sz''); [left; lia|]. cbn [obind].
    assert (B : length rest < fuel).
    { destruct (Nat.eq_dec (length rest) (length sched)) as [E|E]; [|lia]. destruct (Lq E) as [-> _]. lia. }
    specialize (IH v' ch'' rest _ _ I'' B). rewrite skipn_length in IH.
    replace (lo + v_size ch' v + (length D - v_size ch' v)) with (lo + length D) in IH by lia. exact IH.
  - rewrite Sz. destruct (advance_pin trim (length D) _ _ _ _ _ _ _ I') as (v' & ch'' & -> & I'' & Sz''); [left; lia|]. cbn [obind].
    rewrite skipn_all in I''. eauto.
  - eauto.
Qed.

(** *** &until *)
Lemma prefixb_spec x : forall bs, prefixb x bs = true <-> prefix x bs.
Proof.
  induction x as [|a x IH]; intros bs; cbn [prefixb].
  - split; [intros _; exists bs; reflexivity|destruct bs; reflexivity].
  - destruct bs as [|b bs]; [split; [discriminate|intros [c E]; discriminate]|].
    rewrite andb_true_iff, IH, Z.eqb_eq. split.
    + intros [-> [c ->]]. exists c. reflexivity.
    + intros [c E]. injection E as -> ->. split; [reflexivity|exists c; reflexivity].
Qed.
Lemma first_occ_some x : forall bs k, occurs x bs k -> (forall k', k' < k -> ~ occurs x bs k') -> first_occ x bs = Some k.
Proof.
  induction bs as [|b bs IH]; intros k O F; cbn [first_occ]; destruct (prefixb x _) eqn:E.
  - apply prefixb_spec in E. apply occurs_0 in E. destruct k; [reflexivity|]. destruct (F 0); [lia|assumption].
  - destruct O as (a & c & E1 & E2). destruct a; [|discriminate]. cbn [app] in E1.
    assert (prefixb x [] = true) by (apply prefixb_spec; exists c; exact E1). destruct x; discriminate.
  - apply prefixb_spec in E. apply occurs_0 in E. destruct k; [reflexivity|]. destruct (F 0); [lia|assumption].
  - destruct k; [apply occurs_0, prefixb_spec in O; congruence|]. rewrite occurs_S in O.
    rewrite (IH k O); [reflexivity|]. intros k' L H. apply (F (S k')); [lia|]. apply occurs_S. exact H.
Qed.
Lemma first_occ_skip x : forall k bs, k <= length bs -> (forall k', k' < k -> ~ occurs x bs k') ->
  first_occ x bs = option_map (fun j => k + j) (first_occ x (skipn k bs)).
Proof.
  induction k as [|k IH]; intros bs L F; [cbn; destruct (first_occ x bs); reflexivity|].
  destruct bs as [|b bs]; [cbn in L; lia|]. cbn [first_occ skipn]. destruct (prefixb x (b :: bs)) eqn:E.
  - apply prefixb_spec, occurs_0 in E. destruct (F 0); [lia|assumption].
  - rewrite IH; [|cbn in L; lia|intros k' Hk H; apply (F (S k')); [lia|]; apply occurs_S; exact H].
    destruct (first_occ x (skipn k bs)); reflexivity.
Qed.
Lemma occurs_now x bs more k : occurs x (bs ++ more) k -> k <= length bs -> occurs x bs k \/ partial_at x bs k.
Proof.
  intros (a & c & E & <-) L. destruct (Nat.le_gt_cases (length a + length x) (length bs)) as [H|H].
  - left. exists a, (skipn (length a + length x) bs). split; [|reflexivity].
    assert (E2 : firstn (length a + length x) (bs ++ more) = a ++ x).
    { rewrite E, app_assoc, firstn_app, <- app_length, Nat.sub_diag, firstn_all. cbn. apply app_nil_r. }
    rewrite firstn_app in E2. replace (length a + length x - length bs) with 0 in E2 by lia. cbn in E2. rewrite app_nil_r in E2.
    rewrite app_assoc, <- E2. symmetry. apply firstn_skipn.
  - right. exists a, (skipn (length a) bs), (skipn (length bs - length a) x).
    assert (Ea : firstn (length a) bs = a).
    { assert (E2 : firstn (length a) (bs ++ more) = a) by (rewrite E, firstn_app, Nat.sub_diag, firstn_all; cbn; apply app_nil_r).
      rewrite firstn_app in E2. replace (length a - length bs) with 0 in E2 by lia. cbn in E2. rewrite app_nil_r in E2. exact E2. }
    split; [rewrite <- Ea at 1; symmetry; apply firstn_skipn|]. split; [reflexivity|]. split.
    + assert (E2 : firstn (length bs - length a) x = skipn (length a) bs).
      { assert (E3 : skipn (length a) (bs ++ more) = x ++ c) by (rewrite E, skipn_app, skipn_all, Nat.sub_diag; reflexivity).
        rewrite skipn_app in E3. replace (length a - length bs) with 0 in E3 by lia. cbn [skipn] in E3.
        apply (f_equal (firstn (length bs - length a))) in E3. rewrite !firstn_app, skipn_length in E3.
        rewrite Nat.sub_diag in E3. replace (length bs - length a - length x) with 0 in E3 by lia. cbn [firstn] in E3.
        rewrite !app_nil_r in E3. rewrite <- E3. apply firstn_all2. rewrite skipn_length. lia. }
      rewrite <- E2. symmetry. apply firstn_skipn.
    + intros Hs. apply (f_equal (@length _)) in Hs. rewrite skipn_length in Hs. cbn in Hs. lia.
Qed.

Definition ready (x : bytes) (n : nat) : nat := if length x <=? n then 1 else 0.

Lemma map_cbyte_split bs : forall w m, map CByte bs = w ++ m -> exists wb mb, bs = wb ++ mb /\ w = map CByte wb /\ m = map CByte mb.
Proof.
  induction bs as [|b bs IH]; intros w m E.
  - destruct w, m; try discriminate. exists [], []. auto.
  - destruct w as [|c w]; cbn in E; [exists [], (b :: bs); cbn; auto|]. injection E as <- E.
    destruct (IH _ _ E) as (wb & mb & -> & -> & ->). exists (b :: wb), mb. auto.
Qed.

Lemma firstn_add {A} a b (l : list A) : firstn (a + b) l = firstn a l ++ firstn b (skipn a l).
Proof. revert l. induction a as [|a IH]; intros l; [reflexivity|]. destruct l; [cbn; rewrite firstn_nil; reflexivity|]. cbn. rewrite IH. reflexivity. Qed.

Definition umeets (o : outcome (list bytes * view)) (inc : bool) (x : bytes) (acc : list bytes) (bs : bytes) (closed : bool) (lo : nat) (hi : option nat) : Prop :=
  match first_occ x bs with
  | Some k => exists acc' v' ch' rest, o = Finished (Ok (acc', v')) ch' rest /\
                concat acc' = concat acc ++ firstn (if inc then k + length x else k) bs /\
                pin v' ch' rest (map CByte (skipn (k + length x) bs)) closed (lo + (k + length x)) hi
  | None => if closed then exists ch' rest, o = Finished (Throw ParseError) ch' rest
            else exists ch', o = Suspended ch'
  end.

Lemma until_ok trim inc x closed hi : forall fuel acc v ch sched bs lo, pin v ch sched (map CByte bs) closed lo hi ->
  length sched + ready x (v_size ch v) < fuel ->
  umeets (until_loop fuel trim inc x acc v ch sched) inc x acc bs closed lo hi.
Proof.
  induction fuel as [|fuel IH]; intros acc v ch sched bs lo I L; [lia|].
  cbn [until_loop]. rewrite wait_for_input_wm.
  assert (NoFit : forall n, length (map CByte bs) < length x -> first_occ x bs = Some n -> False).
  { intros n Ls. rewrite map_length in Ls. revert n. clear -Ls. induction bs as [|b bs IH]; intros n; cbn [first_occ].
    - destruct (prefixb x []) eqn:E; [|discriminate]. apply prefixb_spec in E. destruct E as [c E].
      apply (f_equal (@length _)) in E. rewrite app_length in E. cbn in E, Ls. lia.
    - destruct (prefixb x (b :: bs)) eqn:E.
      + apply prefixb_spec in E. destruct E as [c E]. apply (f_equal (@length _)) in E. rewrite app_length in E. lia.
      + destruct (first_occ x bs) as [j|] eqn:F; [|discriminate]. intros _. apply (IH ltac:(cbn in Ls; lia) j eq_refl). }
  destruct (wait_cases (Some (length x)) v ch sched _ closed lo hi I) as [(ch' & rest & -> & I' & R & Lr & Lq)|[(ch' & rest & -> & I' & Sz & R & -> & _ & Fz)|(ch' & -> & R & ->)]];
    cbn [obind reached] in *.
  - clear NoFit. apply Nat.leb_le in R. destruct (pin_now _ _ _ _ _ _ _ I') as (os & q & P & [Np Ns No] & _). pose proof (pv_view _ _ _ _ _ _ P) as V.
    pose proof (pv_inside _ _ _ _ _ _ P) as Hb. pose proof (pv_ordered _ _ _ _ _ _ P) as Ho.
    destruct Np as [more ED]. destruct (map_cbyte_split _ _ _ ED) as (wb & mb & -> & EW & Em).
    assert (Lw : v_size ch' v = length wb) by (rewrite Ns, EW, map_length; reflexivity).
    unfold lift at 1. destruct (find_declarative _ _ _ _ _ _ x None lo wb V Hb Ho eq_refl EW) as (found & k & -> & Ff & Fn & Fb).
    cbn [obind fst snd]. rewrite No. replace (lo + k - lo) with k by lia.
    assert (Lk : k <= length wb).
    { destruct found; [destruct (Ff eq_refl) as (a & c & -> & <-)|destruct (Fn eq_refl) as (a & m & c & -> & <- & _)]; rewrite !app_length; lia. }
    destruct (sub_view _ _ _ _ _ _ k V Hb) as (it & s & E1 & E2 & E3 & E4 & os' & q' & V' & Eb' & Ec' & Fz').
    rewrite E1. unfold lift at 1. cbn [obind]. rewrite E2. unfold lift at 1. cbn [obind]. rewrite E3.
    assert (W1 : window q lo (Some (lo + k)) = map CByte (firstn k wb)).
    { rewrite (window_first q lo hi k Hb Ho); [|left; rewrite EW, map_length; exact Lk]. rewrite EW, firstn_map. reflexivity. }
    rewrite W1, map_length, firstn_length, Nat.min_l by exact Lk.
    set (acc1 := if k =? 0 then acc else acc ++ [firstn k wb]).
    assert (Ea1 : concat acc1 = concat acc ++ firstn k wb).
    { unfold acc1. destruct (Nat.eqb_spec k 0) as [->|]; [cbn; rewrite app_nil_r; reflexivity|]. rewrite concat_app. cbn. rewrite app_nil_r. reflexivity. }
    match goal with |- context [obind (if k =? 0 then ?A else ?B) _] =>
      assert (EA : (if k =? 0 then A else B) = Finished (Ok acc1) ch' rest) end.
    { unfold acc1. destruct (k =? 0); [reflexivity|]. rewrite E4, W1. unfold lift, data_res. rewrite as_bytes_map. reflexivity. }
    rewrite EA. cbn [obind]. clear EA.
    destruct found.
    + specialize (Ff eq_refl). assert (Lx : k + length x <= length wb) by (destruct Ff as (a & c & -> & <-); rewrite !app_length; lia).
      assert (FO : first_occ x (wb ++ mb) = Some k).
      { apply first_occ_some.
        - destruct Ff as (a & c & -> & <-). exists a, (c ++ mb). rewrite <- !app_assoc. auto.
        - intros k' Hk H. destruct (occurs_now _ _ _ _ H) as [H2|H2]; [lia| |]; destruct (Fb k' Hk); auto. }
      set (acc2 := if inc then acc1 ++ [firstn (length x) (skipn k wb)] else acc1).
      match goal with |- context [obind (if inc then ?A else ?B) _] =>
        assert (EA : (if inc then A else B) = Finished (Ok acc2) ch' rest) end.
      { unfold acc2. destruct inc; [|reflexivity].
        destruct (sub_view _ _ _ _ _ _ (length x) V') as (it2 & s2 & F1 & F2 & F3 & F4 & _); [rewrite Eb'; lia|].
        cbn [v_begin] in F1, F2. rewrite F1. cbn [bind]. rewrite F2. cbn [bind]. rewrite F4.
        assert (Hok : ordered (lo + k) hi).
        { destruct hi as [h|]; [|exact Logic.I]. cbn [ordered] in *. rewrite Lw in Ns. rewrite (window_length q lo (Some h) Hb) in Ns. lia. }
        rewrite (window_first q' (lo + k) hi (length x)); [|rewrite Eb'; lia|exact Hok|].
        - rewrite (window_same q q' _ _ Eb' Ec'), (window_skip q lo hi k Hb), EW, skipn_map, firstn_map.
          unfold lift, data_res. rewrite as_bytes_map. reflexivity.
        - left. rewrite (window_same q q' _ _ Eb' Ec'), (window_skip q lo hi k Hb), EW, skipn_map, map_length, skipn_length. lia. }
      rewrite EA. cbn [obind]. clear EA.
      destruct (advance_pin trim (k + length x) _ _ _ _ _ _ _ I') as (v' & ch'' & -> & I'' & _); [left; lia|]. cbn [obind].
      unfold umeets. rewrite FO. exists acc2, v', ch'', rest. split; [reflexivity|]. rewrite skipn_map in I''. split; [|exact I''].
      unfold acc2. destruct inc.
      * rewrite concat_app, Ea1. cbn [concat]. rewrite app_nil_r, <- app_assoc. f_equal.
        rewrite firstn_app. replace (k + length x - length wb) with 0 by lia. cbn [firstn]. rewrite app_nil_r, firstn_add. reflexivity.
      * rewrite Ea1. f_equal. rewrite firstn_app. replace (k - length wb) with 0 by lia. cbn [firstn]. rewrite app_nil_r. reflexivity.
    + specialize (Fn eq_refl). destruct Fn as (a & m & c & Ewb & La & Ex & Hc).
      destruct (advance_pin trim k _ _ _ _ _ _ _ I') as (v' & ch'' & -> & I'' & Sz''); [left; lia|]. cbn [obind].
      specialize (Sz'' ltac:(lia)).
      assert (Short : v_size ch'' v' < length x).
      { rewrite Sz'', Lw, Ewb, Ex, !app_length. destruct c; [congruence|]. cbn [length]. lia. }
      assert (B : length rest + ready x (v_size ch'' v') < fuel).
      { unfold ready in *. destruct (Nat.leb_spec (length x) (v_size ch'' v')); [lia|].
        destruct (Nat.eq_dec (length rest) (length sched)) as [E|E].
        - destruct (Lq E) as [-> ->]. destruct (Nat.leb_spec (length x) (v_size ch v)); lia.
        - destruct (length x <=? v_size ch v); lia. }
      rewrite skipn_map in I''. specialize (IH acc1 v' ch'' rest (skipn k (wb ++ mb)) (lo + k) I'' B).
      unfold umeets in *. rewrite (first_occ_skip x k (wb ++ mb)); [|rewrite app_length; lia|].
      2:{ intros k' Hk H. destruct (occurs_now _ _ _ _ H) as [H2|H2]; [lia| |]; destruct (Fb k' Hk); auto. }
      destruct (first_occ x (skipn k (wb ++ mb))) as [j|]; cbn [option_map]; [|exact IH].
      destruct IH as (acc' & v2 & ch2 & rest2 & -> & Ec2 & I2). exists acc', v2, ch2, rest2. split; [reflexivity|]. split.
      * rewrite Ec2, Ea1, <- app_assoc. f_equal.
        replace (if inc then k + j + length x else k + j) with (k + (if inc then j + length x else j)) by (destruct inc; lia).
        rewrite firstn_add. f_equal. rewrite firstn_app. replace (k - length wb) with 0 by lia. cbn [firstn]. rewrite app_nil_r. reflexivity.
      * rewrite skipn_plus in I2. replace (k + j + length x) with (k + (j + length x)) by lia. rewrite <- Nat.add_assoc in I2. exact I2.
  - apply Nat.leb_gt in R. unfold umeets. destruct (first_occ x bs) as [n|]; [destruct (NoFit n R eq_refl)|]. eauto.
  - apply Nat.leb_gt in R. unfold umeets. destruct (first_occ x bs) as [n|]; [destruct (NoFit n R eq_refl)|]. eauto.
Qed.

(** *** Whole parsers *)
Lemma raw_ok n v ch sched D closed lo hi : pin v ch sched D closed lo hi ->
  fmeets (parse_raw n v ch sched) (spec_field (FRaw n) D closed) D closed lo hi.
Proof.
  intros I. unfold parse_raw. rewrite wait_for_input_wm.
  destruct (wait_cases (Some n) v ch sched D closed lo hi I) as [(ch' & rest & -> & I' & R & _)|[(ch' & rest & -> & I' & Sz & R & -> & _ & Fz)|(ch' & -> & R & ->)]];
    cbn [reached] in R; cbn [obind spec_field]; unfold need.
  - apply Nat.leb_le in R. unfold lift.
    destruct (pin_now _ _ _ _ _ _ _ I') as (os & q & P & N & _). pose proof (pv_view _ _ _ _ _ _ P) as V.
    destruct N as [Np Ns No]. assert (LD : n <= length D) by (destruct Np as [m ->]; rewrite app_length; lia).
    destruct (Nat.leb_spec n (length D)) as [_|]; [|lia].
    destruct (advance_pin false n _ _ _ _ _ _ _ I' (or_introl R)) as (v' & ch'' & E & I'' & _).
    unfold advance_input in E. destruct (v_advance ch' v n) as [v1| |] eqn:Ea; try discriminate E. injection E as -> <-.
    destruct (extract_spec os ch' q v lo hi n V (pv_inside _ _ _ _ _ _ P) (pv_ordered _ _ _ _ _ _ P)) as (_ & Eg & Eo).
    rewrite <- Ns in Eg, Eo. rewrite (firstn_prefix n _ _ Np) in Eg, Eo by lia.
    unfold value_of. destruct (as_bytes (firstn n D)) as [bs|] eqn:A.
    + destruct (Eo bs R (as_bytes_some _ _ A)) as (v2 & E1 & ->). rewrite Ea in E1. injection E1 as <-. cbn [fmeets]. eauto.
    + rewrite (Eg R (as_bytes_none _ A)). cbn [fmeets]. eauto.
  - rewrite R. cbn [fmeets]. eauto.
  - rewrite R. cbn [fmeets]. eauto.
Qed.

Lemma field_meets trim f v ch sched D closed lo hi : pin v ch sched D closed lo hi ->
  field_ok (match as_bytes D with Some _ => true | None => false end) (match hi with Some _ => true | None => false end) f ->
  fmeets (parse_field trim f v ch sched) (spec_field f D closed) D closed lo hi.
Proof.
  intros I Hf. destruct f as [n|n eod|lit|inc x| | |n| ]; cbn [parse_field].
  - apply raw_ok, I.
  - apply size_ok; [exact I|]. intros ->. cbn in Hf. destruct hi; [discriminate|reflexivity].
  - apply literal_ok, I.
  - cbn [field_ok spec_field] in *. destruct (as_bytes D) as [bs|] eqn:E; [|discriminate].
    pose proof (as_bytes_some _ _ E) as ->. unfold parse_bytes_until.
    pose proof (until_ok trim inc x closed hi (S (S (length sched))) [] v ch sched bs lo I) as U.
    assert (B : length sched + ready x (v_size ch v) < S (S (length sched))) by (unfold ready; destruct (_ <=? _); lia).
    specialize (U B). unfold umeets in U. destruct (first_occ x bs) as [k|].
    + destruct U as (acc' & v' & ch' & rest & -> & Ec & I'). cbn [obind fst snd fmeets]. exists v', ch', rest. rewrite Ec. cbn [concat app].
      rewrite skipn_map. auto.
    + destruct closed; [destruct U as (ch' & rest & ->)|destruct U as (ch' & ->)]; cbn [obind fmeets]; eauto.
  - apply eod_ok, I.
  - cbn [spec_field]. unfold parse_bytes_chunked.
    pose proof (chunked_ok trim closed hi (S (S (length sched))) [] v ch sched D lo I) as U.
    assert (B : length sched + have (v_size ch v) < S (S (length sched))) by (unfold have; destruct (_ <? _); lia).
    specialize (U B). destruct (as_bytes D) as [bs|].
    + destruct closed.
      * destruct U as (acc' & v' & ch' & rest & -> & Ec & I'). cbn [obind fst snd fmeets]. exists v', ch', rest. rewrite Ec. cbn [concat app].
        rewrite skipn_all. auto.
      * destruct U as (ch' & ->). cbn [obind fmeets]. eauto.
    + destruct U as (ch' & rest & ->). cbn [obind fmeets]. eauto.
  - cbn [spec_field]. unfold skip_bytes.
    pose proof (skip_ok trim closed hi (S (S (length sched))) n v ch sched D lo I) as U.
    assert (B : n = 0 \/ length sched + have (v_size ch v) < S (S (length sched))) by (right; unfold have; destruct (_ <? _); lia).
    specialize (U B). unfold need in *. destruct (n <=? length D).
    + destruct U as (v' & ch' & rest & -> & I'). cbn [obind fmeets]. eauto.
    + destruct closed; [destruct U as (ch' & rest & ->)|destruct U as (ch' & ->)]; cbn [obind fmeets]; eauto.
  - cbn [spec_field]. unfold skip_eod.
    pose proof (skip_eod_ok trim closed hi (S (S (length sched))) v ch sched D lo I ltac:(lia)) as U.
    destruct closed.
    + destruct U as (v' & ch' & rest & -> & I'). cbn [obind fmeets]. exists v', ch', rest. rewrite skipn_all. auto.
    + destruct U as (ch' & ->). cbn [obind fmeets]. eauto.
Qed.

End Frames.

Lemma as_bytes_skipn n : forall D bs, as_bytes D = Some bs -> as_bytes (skipn n D) = Some (skipn n bs).
Proof. intros D bs E. rewrite (as_bytes_some _ _ E), skipn_map. apply as_bytes_map. Qed.

