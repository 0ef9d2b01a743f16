(** Proofs for C62 and C63: escape sequences. *)
From Verif Require Import Base StrModel UniModel UniSpec UniProofs UniProofs2.
Open Scope Z_scope.

Lemma digit16 c v : digit 16 c = Some v <-> hexval c v.
Proof.
  unfold digit, hexval. split.
  - destruct ((48 <=? c) && (c <? 48 + 16)) eqn:A; [intros E; left; split; [lia|congruence]|].
    destruct ((97 <=? c) && (c <? 97 - 10 + 16)) eqn:B; [intros E; right; left; split; [lia|congruence]|].
    destruct ((65 <=? c) && (c <? 65 - 10 + 16)) eqn:C; [intros E; right; right; split; [lia|congruence]|discriminate].
  - intros [(H & ->)|[(H & ->)|(H & ->)]].
    + replace ((48 <=? c) && (c <? 48 + 16)) with true by lia. reflexivity.
    + replace ((48 <=? c) && (c <? 48 + 16)) with false by lia. replace ((97 <=? c) && (c <? 97 - 10 + 16)) with true by lia. reflexivity.
    + replace ((48 <=? c) && (c <? 48 + 16)) with false by lia. replace ((97 <=? c) && (c <? 97 - 10 + 16)) with false by lia.
      replace ((65 <=? c) && (c <? 65 - 10 + 16)) with true by lia. reflexivity.
Qed.
Lemma hexval_range c v : hexval c v -> 0 <= v < 16 /\ 48 <= c.
Proof. unfold hexval. lia. Qed.

Inductive hexacc : Z -> bytes -> Z -> Prop :=
| hexacc_nil n : hexacc n [] n
| hexacc_cons n c d s v : hexval c d -> hexacc (n * 16 + d) s v -> hexacc n (c :: s) v.
Lemma hexacc_snoc n s v c d : hexacc n s v -> hexval c d -> hexacc n (s ++ [c]) (16 * v + d).
Proof.
  intros H D. induction H as [n|n c' d' s v D' H IH].
  - cbn. econstructor; [exact D|]. replace (n * 16 + d) with (16 * n + d) by lia. constructor.
  - cbn. econstructor; [exact D'|]. exact (IH).
Qed.
Lemma hexacc_app n s v t w : hexacc n s v -> hexacc v t w -> hexacc n (s ++ t) w.
Proof. intros H. induction H; intros K; cbn; auto. econstructor; eauto. Qed.
Lemma hexnum_acc s v : hexnum s v -> hexacc 0 s v.
Proof. induction 1; [constructor|]. apply hexacc_snoc; auto. Qed.
Lemma hexacc_split n s c v : hexacc n (s ++ [c]) v -> exists w d, hexacc n s w /\ hexval c d /\ v = 16 * w + d.
Proof.
  revert n. induction s as [|x s IH]; intros n H; cbn in H; inversion H as [|? ? d ? ? D H']; subst.
  - inversion H'; subst. exists n, d. split; [constructor|]. split; [exact D|lia].
  - destruct (IH _ H') as (w & d' & A & B & ->). exists w, d'. split; [econstructor; eauto|auto].
Qed.
Lemma hexacc_num s v : hexacc 0 s v -> hexnum s v.
Proof.
  revert v. induction s as [|c s IH] using rev_ind; intros v H; [inversion H; constructor|].
  apply hexacc_split in H. destruct H as (w & d & A & B & ->). constructor; auto.
Qed.
Lemma hexacc_mono n s v : 0 <= n -> hexacc n s v -> n <= v.
Proof. intros N H. induction H as [n|n c d s v D H IH]; [lia|]. apply hexval_range in D. lia. Qed.

Lemma digits_fwd mx mxd s : forall n v k j, 0 <= n < 16 ^ Z.of_nat j -> (j + length s <= 15)%nat ->
  digits_loop 16 mx mxd n s = Ok (v, k) -> (k <= length s)%nat /\ (k = length s -> hexacc n s v).
Proof.
  induction s as [|c s IH]; intros n v k j N L E; cbn [digits_loop] in E.
  - assert (n = v) by congruence. assert (0%nat = k) by congruence. subst. split; [cbn; lia|constructor].
  - destruct (digit 16 c) as [d|] eqn:D.
    2: { assert (0%nat = k) by congruence. subst. cbn. split; [lia|discriminate]. }
    match type of E with (if ?b then _ else _) = _ => destruct b; [discriminate E|] end.
    apply digit16 in D. pose proof (hexval_range _ _ D) as R. cbn [length] in L.
    assert (P : 16 ^ Z.of_nat (S j) <= 16 ^ 15) by (apply Z.pow_le_mono_r; lia).
    assert (Q : 16 ^ Z.of_nat (S j) = 16 * 16 ^ Z.of_nat j) by (rewrite Nat2Z.inj_succ, Z.pow_succ_r by lia; reflexivity).
    change (16 ^ 15) with 1152921504606846976 in P.
    assert (M : (n * 16 + d) mod 2 ^ 64 = n * 16 + d) by (apply Z.mod_small; change (2 ^ 64) with 18446744073709551616; lia).
    unfold byte in *. rewrite M in E.
    destruct (digits_loop 16 mx mxd (n * 16 + d) s) as [[v' k']| |] eqn:G; try discriminate E.
    cbn [bind fst snd] in E. assert (v' = v) by congruence. assert (S k' = k) by congruence. subst.
    destruct (IH (n * 16 + d) v k' (S j) ltac:(rewrite Q; lia) ltac:(lia) G) as [A B]. cbn. split; [lia|]. intros K. econstructor; [exact D|]. apply B. lia.
Qed.
Lemma digits_bwd mx mxd B s : B < 2 ^ 64 ->
  (forall n d, 0 <= n -> 0 <= d < 16 -> n * 16 + d <= B -> ((mxd <? n) || ((mx - (n * 16) mod 2 ^ 64) mod 2 ^ 64 <? d)) = false) ->
  forall n v, 0 <= n -> hexacc n s v -> v <= B -> digits_loop 16 mx mxd n s = Ok (v, length s).
Proof.
  intros HB HC. induction s as [|c s IH]; intros n v N H V; inversion H as [|? ? d ? ? D H']; subst; cbn [digits_loop].
  - reflexivity.
  - pose proof (hexval_range _ _ D) as R. apply digit16 in D. rewrite D.
    assert (LE : n * 16 + d <= v) by (apply (hexacc_mono _ s); [lia|exact H']).
    rewrite HC by lia.
    assert (M : (n * 16 + d) mod 2 ^ 64 = n * 16 + d) by (apply Z.mod_small; lia).
    unfold byte in *. rewrite M, (IH (n * 16 + d) v ltac:(lia) H' V). reflexivity.
Qed.

Lemma check_s32 n d : 0 <= n -> 0 <= d < 16 -> n * 16 + d <= 2 ^ 31 -> ((2 ^ 31 / 16 <? n) || ((2 ^ 31 - (n * 16) mod 2 ^ 64) mod 2 ^ 64 <? d)) = false.
Proof.
  intros N D H. change (2 ^ 31 / 16) with 134217728. change (2 ^ 31) with 2147483648 in *. change (2 ^ 64) with 18446744073709551616.
  rewrite (Z.mod_small (n * 16)) by lia. rewrite Z.mod_small by lia. apply orb_false_iff. lia.
Qed.
Lemma check_char n d : 0 <= n -> 0 <= d < 16 -> n * 16 + d <= 255 -> ((2 ^ 64 - 8 <? n) || ((2 ^ 64 - 128 - (n * 16) mod 2 ^ 64) mod 2 ^ 64 <? d)) = false.
Proof.
  intros N D H. change (2 ^ 64) with 18446744073709551616.
  rewrite (Z.mod_small (n * 16)) by lia. rewrite Z.mod_small by lia. apply orb_false_iff. lia.
Qed.

(** atoi_n, base 16, on at most 14 characters *)
Lemma atoi_fwd cast mx mxd h ov k : (1 <= length h <= 14)%nat -> atoi_n cast mx mxd h 16 = Ok (ov, k) -> k = Z.of_nat (length h) ->
  exists z, signed_hex h z /\ ov = Some (cast (z mod 2 ^ 64)).
Proof.
  intros L E K. unfold atoi_n in E. cbn [Z.ltb Z.compare Pos.compare Pos.compare_cont orb] in E. destruct h as [|c h]; [cbn in L; lia|].
  set (sign := if c =? 45 then 1%nat else if c =? 43 then 1%nat else 0%nat) in E.
  destruct (digits_loop 16 mx mxd 0 (skipn sign (c :: h))) as [[v m]| |] eqn:D; try discriminate E. cbn [bind fst snd] in E.
  destruct (sign + m =? 0)%nat eqn:Z0.
  { assert (0 = k) by congruence. cbn [length] in *. lia. }
  assert (LS : (length (skipn sign (c :: h)) = length (c :: h) - sign)%nat) by apply skipn_length.
  destruct (digits_fwd mx mxd (skipn sign (c :: h)) 0 v m 0%nat ltac:(cbn; lia) ltac:(lia) D) as [A B].
  assert (K1 : Z.of_nat (sign + m) mod 256 = k) by congruence.
  assert (SG : (sign <= 1)%nat) by (unfold sign; destruct (c =? 45), (c =? 43); lia).
  rewrite Z.mod_small in K1 by lia. cbn [length] in *. assert (m = length (skipn sign (c :: h)))%nat by lia. specialize (B H).
  apply hexacc_num in B. assert (V0 : 0 <= v) by (apply (hexacc_mono 0 (skipn sign (c :: h))); [lia|apply hexnum_acc, B]).
  assert (OV : ov = Some (cast (if c =? 45 then (0 - v) mod 2 ^ 64 else v))) by congruence.
  assert (VS : v < 2 ^ 64).
  { enough (v < 16 ^ 15) by (change (2 ^ 64) with 18446744073709551616; change (16 ^ 15) with 1152921504606846976 in *; lia).
    clear -B LS L. revert B. assert (LL : (length (skipn sign (c :: h)) <= 14)%nat) by lia. revert LL. generalize (skipn sign (c :: h)) as t. intros t LL B.
    assert (v < 16 ^ Z.of_nat (length t)).
    { clear LL. induction B as [|s n c0 d0 B IH D]; [cbn; lia|]. rewrite app_length, Nat2Z.inj_add. rewrite Z.pow_add_r by lia. cbn [length Z.of_nat Pos.of_succ_nat].
      apply hexval_range in D. change (16 ^ 1) with 16. lia. }
    assert (16 ^ Z.of_nat (length t) <= 16 ^ 15) by (apply Z.pow_le_mono_r; lia). lia. }
  unfold sign in B. destruct (Z.eqb_spec c 45) as [-> | N1].
  - cbn [skipn] in B. exists (- v). split; [|exact OV]. right. exists h, v. split; [exact B|]. right. auto.
  - destruct (Z.eqb_spec c 43) as [-> | N2].
    + cbn [skipn] in B. exists v. rewrite Z.mod_small by lia. split; [|exact OV]. right. exists h, v. split; [exact B|]. left. auto.
    + cbn [skipn] in B. exists v. rewrite Z.mod_small by lia. split; [|exact OV]. left. exact B.
Qed.

Lemma atoi_bwd cast mx mxd B h z : B < 2 ^ 64 ->
  (forall n d, 0 <= n -> 0 <= d < 16 -> n * 16 + d <= B -> ((mxd <? n) || ((mx - (n * 16) mod 2 ^ 64) mod 2 ^ 64 <? d)) = false) ->
  (1 <= length h <= 14)%nat -> signed_hex h z -> - B <= z <= B -> atoi_n cast mx mxd h 16 = Ok (Some (cast (z mod 2 ^ 64)), Z.of_nat (length h)).
Proof.
  intros HB HC L S1 R. unfold atoi_n. cbn [Z.ltb Z.compare Pos.compare Pos.compare_cont orb].
  assert (G : forall t n, hexnum t n -> n <= B -> digits_loop 16 mx mxd 0 t = Ok (n, length t)).
  { intros t n H Hn. apply (digits_bwd mx mxd B); auto; [lia|apply hexnum_acc, H]. }
  assert (P : forall t n, hexnum t n -> 0 <= n) by (intros t n H; apply (hexacc_mono 0 t); [lia|apply hexnum_acc, H]).
  destruct S1 as [H|(t & n & H & [(-> & ->)|(-> & ->)])].
  - destruct h as [|c h]; [cbn in L; lia|].
    assert (C : 48 <= c). { apply hexnum_acc in H. inversion H as [|? ? d ? ? D _]; subst. apply hexval_range in D. lia. }
    replace (c =? 45) with false by lia. replace (c =? 43) with false by lia. cbn [skipn].
    rewrite (G _ _ H) by lia. cbn [bind fst snd Nat.add length Nat.eqb]. specialize (P _ _ H). rewrite (Z.mod_small (Z.of_nat _)) by (cbn [length] in L; lia). rewrite Z.mod_small by lia. reflexivity.
  - cbn [Z.eqb Pos.eqb skipn]. rewrite (G _ _ H) by lia. cbn [bind fst snd Nat.add length Nat.eqb]. specialize (P _ _ H). rewrite (Z.mod_small (Z.of_nat _)) by (cbn [length] in L; lia). rewrite Z.mod_small by lia. reflexivity.
  - cbn [Z.eqb Pos.eqb skipn]. rewrite (G _ _ H) by lia. cbn [bind fst snd Nat.add length Nat.eqb]. rewrite (Z.mod_small (Z.of_nat _)); [reflexivity|cbn [length] in L; lia].
Qed.

(** what atoi throws *)
Lemma digits_exn b mx mxd s : forall n, match digits_loop b mx mxd n s with Ok _ => True | Throw e => e = OutOfRange | UB => False end.
Proof.
  induction s as [|c s IH]; intros n; cbn [digits_loop]; auto. destruct (digit b c); auto.
  match goal with |- context [if ?b then _ else _] => destruct b; auto end.
  match goal with |- context [digits_loop b mx mxd ?m s] => specialize (IH m); destruct (digits_loop b mx mxd m s) end; auto.
Qed.
Lemma atoi_exn cast mx mxd h : h <> [] -> match atoi_n cast mx mxd h 16 with Ok _ => True | Throw e => e = OutOfRange | UB => False end.
Proof.
  intros NE. unfold atoi_n. cbn [Z.ltb Z.compare Pos.compare Pos.compare_cont orb]. destruct h as [|c h]; [congruence|].
  match goal with |- context [digits_loop 16 mx mxd ?m ?s] => pose proof (digits_exn 16 mx mxd s m) as D; destruct (digits_loop 16 mx mxd m s) end; auto.
  cbn [bind]. match goal with |- context [if ?b then _ else _] => destruct b; auto end.
Qed.

Lemma cast_s32_small z : 0 <= z < 1114112 -> cast_s32 (z mod 2 ^ 64) = z.
Proof. intros H. rewrite Z.mod_small by lia. unfold cast_s32. rewrite Z.mod_small by lia. destruct (Z.ltb_spec z (2 ^ 31)); lia. Qed.
Lemma cast_s32_inv z : - 2 ^ 31 <= z <= 2 ^ 31 -> 0 <= cast_s32 (z mod 2 ^ 64) < 1114112 -> cast_s32 (z mod 2 ^ 64) = z.
Proof.
  unfold cast_s32. change (2 ^ 31) with 2147483648. change (2 ^ 32) with 4294967296. change (2 ^ 64) with 18446744073709551616. intros H.
  destruct (Z.ltb_spec ((z mod 18446744073709551616) mod 4294967296) 2147483648); Z.to_euclidean_division_equations; lia.
Qed.
Lemma utf8_encode_range cp : utf8_encode cp <> [] <-> 0 <= cp < 1114112.
Proof. unfold utf8_encode. cmp; split; intros; try lia; try congruence. Qed.

Lemma s32_bound h z k ov : (1 <= length h <= 14)%nat -> signed_hex h z -> atoi_s32 h = Ok (ov, k) -> k = Z.of_nat (length h) -> - 2 ^ 31 <= z <= 2 ^ 31.
Proof.
  intros L H E K.
  assert (DF : forall s n v m, digits_loop 16 (2 ^ 31) (2 ^ 31 / 16) n s = Ok (v, m) -> 0 <= n <= 2 ^ 31 -> forall w, hexacc n s w -> w <= 2 ^ 31).
  { induction s as [|c s IH]; intros n v m D N w W; inversion W as [|? ? d ? ? HD HW]; subst; [lia|]. cbn [digits_loop] in D.
    pose proof (hexval_range _ _ HD). apply digit16 in HD. rewrite HD in D.
    match type of D with (if ?b then _ else _) = _ => destruct b eqn:C; [discriminate D|] end.
    change (2 ^ 31 / 16) with 134217728 in C. apply orb_false_iff in C. destruct C as [C1 C2]. apply Z.ltb_ge in C1, C2.
    change (2 ^ 31) with 2147483648 in *. change (2 ^ 64) with 18446744073709551616 in *.
    rewrite (Z.mod_small (n * 16)) in C2 by lia. rewrite Z.mod_small in C2 by lia.
    unfold byte in *. rewrite (Z.mod_small (n * 16 + d)) in D by lia.
    destruct (digits_loop 16 2147483648 (2147483648 / 16) (n * 16 + d) s) as [[v' m']| |] eqn:G; try discriminate D. eapply IH; eauto. lia. }
  unfold atoi_s32, atoi_n in E. cbn [Z.ltb Z.compare Pos.compare Pos.compare_cont orb] in E. destruct h as [|c h]; [cbn in L; lia|].
  assert (P : forall t n, hexnum t n -> 0 <= n) by (intros t n Hn; apply (hexacc_mono 0 t); [lia|apply hexnum_acc, Hn]).
  destruct H as [H|(t & n & H & [(Q & ->)|(Q & ->)])].
  - assert (C : 48 <= c). { apply hexnum_acc in H. inversion H as [|? ? d ? ? D _]; subst. apply hexval_range in D. lia. }
    replace (c =? 45) with false in E by lia. replace (c =? 43) with false in E by lia. cbn [skipn] in E.
    destruct (digits_loop _ _ _ _ _) as [[v m]| |] eqn:D in E; try discriminate E. specialize (P _ _ H).
    assert (z <= 2 ^ 31) by (eapply DF; [exact D|lia|apply hexnum_acc, H]). lia.
  - apply cons_inj in Q. destruct Q as [-> ->]. cbn [Z.eqb Pos.eqb skipn] in E.
    destruct (digits_loop _ _ _ _ _) as [[v m]| |] eqn:D in E; try discriminate E. specialize (P _ _ H).
    assert (n <= 2 ^ 31) by (eapply DF; [exact D|lia|apply hexnum_acc, H]). lia.
  - apply cons_inj in Q. destruct Q as [-> ->]. cbn [Z.eqb Pos.eqb skipn] in E.
    destruct (digits_loop _ _ _ _ _) as [[v m]| |] eqn:D in E; try discriminate E. specialize (P _ _ H).
    assert (n <= 2 ^ 31) by (eapply DF; [exact D|lia|apply hexnum_acc, H]). lia.
Qed.

Lemma expand_unicode_fwd s k u : (1 <= k <= 8)%nat -> expand_unicode s k = Ok u ->
  exists h t v, s = h ++ t /\ length h = k /\ signed_hex h v /\ 0 <= v < 1114112 /\ u = utf8_encode v.
Proof.
  intros K E. unfold expand_unicode in E. destruct (Nat.ltb_spec (length s) k); [discriminate|].
  assert (LH : length (firstn k s) = k) by (rewrite firstn_length; lia).
  destruct (atoi_s32 (firstn k s)) as [[ov m]| |] eqn:A; try discriminate E. cbn [bind fst snd] in E.
  destruct (Z.eqb_spec m (Z.of_nat k)) as [-> | ?]; [|discriminate]. cbn [negb] in E.
  destruct (atoi_fwd cast_s32 (2 ^ 31) (2 ^ 31 / 16) (firstn k s) ov (Z.of_nat k) ltac:(lia) A ltac:(congruence)) as (z & SZ & ->).
  pose proof (s32_bound (firstn k s) z (Z.of_nat k) _ ltac:(lia) SZ A ltac:(congruence)) as BZ.
  destruct (utf8_encode (cast_s32 (z mod 2 ^ 64))) as [|x l] eqn:U; [discriminate|].
  assert (R : 0 <= cast_s32 (z mod 2 ^ 64) < 1114112) by (apply utf8_encode_range; congruence).
  pose proof (cast_s32_inv z BZ R) as CI. rewrite CI in *.
  exists (firstn k s), (skipn k s), z. split; [symmetry; apply firstn_skipn|]. split; [exact LH|]. split; [exact SZ|]. split; [exact R|]. congruence.
Qed.
Lemma expand_unicode_bwd h t v k : (1 <= k <= 8)%nat -> length h = k -> signed_hex h v -> 0 <= v < 1114112 -> expand_unicode (h ++ t) k = Ok (utf8_encode v).
Proof.
  intros K L H V. unfold expand_unicode. rewrite app_length. destruct (Nat.ltb_spec (length h + length t) k); [lia|].
  replace (firstn k (h ++ t)) with h by (rewrite firstn_app, <- L, firstn_all, Nat.sub_diag, app_nil_r; reflexivity).
  unfold atoi_s32. rewrite (atoi_bwd _ _ _ (2 ^ 31) h v ltac:(reflexivity) check_s32 ltac:(lia) H ltac:(lia)). cbn [bind fst snd].
  rewrite cast_s32_small by exact V. rewrite L, Z.eqb_refl. cbn [negb]. destruct (utf8_encode v) as [|x l] eqn:U; [|reflexivity].
  apply utf8_encode_range in V. contradiction.
Qed.
Lemma expand_unicode_exn s k : (1 <= k)%nat -> match expand_unicode s k with Ok _ => True | Throw e => e = UnicodeError \/ e = OutOfRange | UB => False end.
Proof.
  intros K. unfold expand_unicode. destruct (Nat.ltb_spec (length s) k); auto.
  assert (NE : firstn k s <> []). { intros Q. apply (f_equal (@length byte)) in Q. rewrite firstn_length in Q. cbn in Q. lia. }
  pose proof (atoi_exn cast_s32 (2 ^ 31) (2 ^ 31 / 16) _ NE) as A. unfold atoi_s32. destruct (atoi_n _ _ _ _ _) as [[ov m]| |]; cbn [bind fst snd]; [|auto|exact A].
  destruct (negb _); auto. destruct (utf8_encode _); auto.
Qed.

(** ** the loop *)
Lemma u8_mod z : cast_u8 (z mod 2 ^ 64) = z mod 256.
Proof. unfold cast_u8. change (2 ^ 64) with (72057594037927936 * 256). Z.to_euclidean_division_equations; lia. Qed.

Lemma expand_fwd f : forall s r, expand_loop f s = Ok r -> unescapes s r.
Proof.
  induction f as [|f IH]; intros s r E; destruct s as [|c s]; cbn [expand_loop] in E; try discriminate E;
    try (assert (r = []) as -> by congruence; constructor).
  destruct (Z.eqb_spec c 92) as [-> | NC]; cbn [negb] in E.
  2: { destruct (expand_loop f s) as [t| |] eqn:T; try discriminate E. cbn [bind] in E. assert (r = c :: t) as -> by congruence. constructor; auto. }
  destruct s as [|e s]; [discriminate E|].
  assert (EM : forall x, In (e, x) simple_escapes -> (let* t := expand_loop f s in Ok (x :: t)) = Ok r -> unescapes (92 :: e :: s) r).
  { intros x X Q. destruct (expand_loop f s) as [t| |] eqn:T; try discriminate Q. cbn [bind] in Q. assert (r = x :: t) as -> by congruence. constructor; auto. }
  destruct (Z.eqb_spec e 92) as [-> | N1]; [apply (EM 92); [cbn; tauto|exact E]|].
  destruct (Z.eqb_spec e 34) as [-> | N2]; [apply (EM 34); [cbn; tauto|exact E]|].
  destruct (Z.eqb_spec e 48) as [-> | N3]; [apply (EM 0); [cbn; tauto|exact E]|].
  destruct (Z.eqb_spec e 97) as [-> | N4]; [apply (EM 7); [cbn; tauto|exact E]|].
  destruct (Z.eqb_spec e 98) as [-> | N5]; [apply (EM 8); [cbn; tauto|exact E]|].
  destruct (Z.eqb_spec e 101) as [-> | N6]; [apply (EM 27); [cbn; tauto|exact E]|].
  destruct (Z.eqb_spec e 102) as [-> | N7]; [apply (EM 12); [cbn; tauto|exact E]|].
  destruct (Z.eqb_spec e 110) as [-> | N8]; [apply (EM 10); [cbn; tauto|exact E]|].
  destruct (Z.eqb_spec e 114) as [-> | N9]; [apply (EM 13); [cbn; tauto|exact E]|].
  destruct (Z.eqb_spec e 116) as [-> | N10]; [apply (EM 9); [cbn; tauto|exact E]|].
  destruct (Z.eqb_spec e 118) as [-> | N11]; [apply (EM 11); [cbn; tauto|exact E]|].
  clear EM.
  assert (UN : forall k, (1 <= k <= 8)%nat -> (e = 117 /\ k = 4%nat) \/ (e = 85 /\ k = 8%nat) ->
    (let* u := expand_unicode s k in let* r0 := expand_loop f (skipn k s) in Ok (u ++ r0)) = Ok r -> unescapes (92 :: e :: s) r).
  { intros k K EK Q. destruct (expand_unicode s k) as [u| |] eqn:U; try discriminate Q. cbn [bind] in Q.
    apply expand_unicode_fwd in U; [|exact K]. destruct U as (h & t & v & -> & L & HV & V & ->).
    rewrite <- L in Q at 1. rewrite skipn_app_exact in Q. destruct (expand_loop f t) as [r'| |] eqn:T; try discriminate Q. cbn [bind] in Q.
    assert (r = utf8_encode v ++ r') as -> by congruence. destruct (utf8_encode_carries v V) as [C W].
    eapply ue_unicode; eauto. }
  destruct (Z.eqb_spec e 117) as [-> | N12]; [apply (UN 4%nat); [lia|auto|exact E]|].
  destruct (Z.eqb_spec e 85) as [-> | N13]; [apply (UN 8%nat); [lia|auto|exact E]|].
  destruct (Z.eqb_spec e 120) as [-> | N14]; [|discriminate E]. clear UN.
  destruct s as [|x s]; [discriminate E|]. remember (x :: s) as s2 eqn:E2. cbn zeta in E.
  assert (L2 : (1 <= length s2)%nat) by (subst; cbn; lia).
  set (k := Nat.min 2 (length s2)) in *. assert (LH : length (firstn k s2) = k) by (rewrite firstn_length; lia).
  destruct (atoi_char (firstn k s2)) as [[ov m]| |] eqn:A; try discriminate E. cbn [bind fst snd] in E.
  destruct (Z.eqb_spec m (Z.of_nat k)) as [-> | ?]; [|discriminate E]. cbn [negb] in E.
  destruct (atoi_fwd cast_u8 (2 ^ 64 - 128) (2 ^ 64 - 8) (firstn k s2) ov (Z.of_nat k) ltac:(lia) A ltac:(congruence)) as (z & SZ & ->).
  destruct (expand_loop f (skipn k s2)) as [t| |] eqn:T; try discriminate E. cbn [bind] in E.
  assert (r = cast_u8 (z mod 2 ^ 64) :: t) as -> by congruence. rewrite u8_mod.
  rewrite <- (firstn_skipn k s2). apply ue_hex; [|exact SZ|apply IH, T].
  destruct (Nat.eq_dec (length s2) 1) as [Q|Q]; [right|left; lia]. split; [lia|]. apply skipn_all2. lia.
Qed.

Lemma hexnum_lt t n : hexnum t n -> n < 16 ^ Z.of_nat (length t).
Proof.
  induction 1 as [|s n c0 d0 B IH D]; [cbn; lia|]. rewrite app_length, Nat2Z.inj_add. rewrite Z.pow_add_r by lia. cbn [length Z.of_nat Pos.of_succ_nat].
  apply hexval_range in D. change (16 ^ 1) with 16. lia.
Qed.
Lemma signed_small h z : (length h <= 2)%nat -> signed_hex h z -> -255 <= z <= 255.
Proof.
  intros L H.
  assert (G : forall t n, (length t <= 2)%nat -> hexnum t n -> 0 <= n <= 255).
  { intros t n Lt Hn. split; [apply (hexacc_mono 0 t); [lia|apply hexnum_acc, Hn]|]. apply hexnum_lt in Hn.
    assert (16 ^ Z.of_nat (length t) <= 16 ^ 2) by (apply Z.pow_le_mono_r; lia). change (16 ^ 2) with 256 in *. lia. }
  destruct H as [H|(t & n & H & [(-> & ->)|(-> & ->)])]; cbn [length] in L; [specialize (G h z ltac:(lia) H)|specialize (G t n ltac:(lia) H)|specialize (G t n ltac:(lia) H)]; lia.
Qed.

Lemma expand_bwd s r : unescapes s r -> forall f, (length s <= f)%nat -> expand_loop f s = Ok r.
Proof.
  induction 1 as [|c s r N H IH|e x s r I1 H IH|l k h v u s r LK L HV V C W H IH|h v s r L HV H IH]; intros f F.
  - destruct f; reflexivity.
  - cbn [length] in F. destruct f as [|f]; [lia|]. cbn [expand_loop]. apply Z.eqb_neq in N. rewrite N. cbn [negb]. rewrite IH by lia. reflexivity.
  - cbn [length] in F. destruct f as [|f]; [lia|]. cbn [expand_loop]. cbn [Z.eqb Pos.eqb negb]. cbn zeta. rewrite IH by lia. cbn [bind].
    cbn [simple_escapes In] in I1.
    repeat match type of I1 with _ \/ _ => destruct I1 as [I1|I1] end; try contradiction; injection I1 as <- <-; reflexivity.
  - cbn [length] in F. rewrite app_length in F. destruct f as [|f]; [lia|].
    assert (u = utf8_encode v) as ->. { destruct (utf8_encode_carries v V) as [C' W']. apply (carries_fun v); auto. congruence. }
    destruct LK as [(-> & ->)|(-> & ->)]; cbn [expand_loop]; cbn [Z.eqb Pos.eqb negb].
    + rewrite (expand_unicode_bwd h s v 4 ltac:(lia) L HV V). cbn [bind]. rewrite <- L at 1. rewrite skipn_app_exact. rewrite IH by lia. reflexivity.
    + rewrite (expand_unicode_bwd h s v 8 ltac:(lia) L HV V). cbn [bind]. rewrite <- L at 1. rewrite skipn_app_exact. rewrite IH by lia. reflexivity.
  - cbn [length] in F. rewrite app_length in F. destruct f as [|f]; [lia|]. cbn [expand_loop]. cbn [Z.eqb Pos.eqb negb]. cbn zeta.
    assert (K : Nat.min 2 (length (h ++ s)) = length h). { rewrite app_length. destruct L as [L|[L ->]]; cbn [length]; lia. }
    assert (L2 : (1 <= length h <= 2)%nat) by (destruct L as [L|[L _]]; lia).
    rewrite K. replace (firstn (length h) (h ++ s)) with h by (rewrite firstn_app, firstn_all, Nat.sub_diag, app_nil_r; reflexivity).
    rewrite skipn_app_exact. unfold atoi_char.
    rewrite (atoi_bwd cast_u8 (2 ^ 64 - 128) (2 ^ 64 - 8) 255 h v ltac:(reflexivity) check_char ltac:(lia) HV (signed_small h v ltac:(lia) HV)).
    cbn [bind fst snd]. rewrite Z.eqb_refl. cbn [negb]. rewrite IH by lia. cbn [bind]. rewrite u8_mod.
    destruct (h ++ s) as [|y t] eqn:Q; [|reflexivity]. apply app_eq_nil in Q. destruct Q as [-> _]. cbn in L2. lia.
Qed.

Lemma expand_exn f : forall s, (length s <= f)%nat ->
  match expand_loop f s with Ok _ => True | Throw e => e = RuntimeError \/ e = UnicodeError \/ e = FormattingError \/ e = OutOfRange | UB => False end.
Proof.
  induction f as [|f IH]; intros s F; destruct s as [|c s]; cbn [expand_loop]; auto; [cbn in F; lia|]. cbn [length] in F.
  destruct (negb (c =? 92)); [specialize (IH s ltac:(lia)); destruct (expand_loop f s); auto|].
  destruct s as [|e s]; [auto|]. cbn [length] in F.
  assert (SK : forall k, (length (skipn k s) <= f)%nat) by (intros k; rewrite skipn_length; lia).
  pose proof (IH s ltac:(lia)) as IHs.
  repeat match goal with |- context [if e =? ?n then let* r := expand_loop f s in Ok (?x :: r) else _] => destruct (e =? n); [destruct (expand_loop f s); cbn [bind]; auto|] end.
  destruct (e =? 117).
  { pose proof (expand_unicode_exn s 4 ltac:(lia)) as U. destruct (expand_unicode s 4); cbn [bind]; [|tauto|exact U]. specialize (IH _ (SK 4%nat)). destruct (expand_loop f (skipn 4 s)); auto. }
  destruct (e =? 85).
  { pose proof (expand_unicode_exn s 8 ltac:(lia)) as U. destruct (expand_unicode s 8); cbn [bind]; [|tauto|exact U]. specialize (IH _ (SK 8%nat)). destruct (expand_loop f (skipn 8 s)); auto. }
  destruct (e =? 120); [|auto]. destruct s as [|x s]; [auto|]. cbn zeta. remember (x :: s) as s2 eqn:E2.
  set (k := Nat.min 2 (length s2)). assert (NE : firstn k s2 <> []) by (subst; discriminate).
  pose proof (atoi_exn cast_u8 (2 ^ 64 - 128) (2 ^ 64 - 8) _ NE) as A. unfold atoi_char. destruct (atoi_n _ _ _ _ _) as [[ov m]| |]; cbn [bind]; [|tauto|exact A].
  destruct (negb _); [auto|]. specialize (IH _ (SK k)). destruct (expand_loop f (skipn k s2)); auto.
Qed.

(** ** C63 *)
Lemma carries_ascii cp c : carries cp c -> cp < 128 -> length c = width8 cp -> c = [cp].
Proof. intros C L W. apply (carries_fun cp); auto; [left; split; [reflexivity|]|unfold width8 in W; replace (cp <? 128) with true in W by lia; exact W].
  unfold carries, bits6 in C. destruct C as [C|[C|[C|C]]]; [tauto|..]; destruct C as (a & b & C); [lia|destruct C as (d & C); lia|destruct C as (d & e & C); lia].
Qed.
Lemma char8_high cp c : char8 cp c -> 128 <= cp -> Forall (fun b => 128 <= b) c.
Proof.
  intros (S1 & C & W) L. unfold carries, bits6 in C.
  destruct C as [(-> & H)|[(a & b & -> & H1 & H2 & E)|[(a & b & d & -> & H1 & H2 & H3 & E)|(a & b & d & e & -> & H1 & H2 & H3 & H4 & E)]]]; [lia|..]; repeat constructor; lia.
Qed.
Lemma unescapes_high c s r : Forall (fun b => 128 <= b) c -> unescapes s r -> unescapes (c ++ s) (c ++ r).
Proof. induction 1; intros U; cbn; auto. constructor; auto. lia. Qed.

Lemma control_letter_spec c l : control_letter c = Some l -> In (l, c) simple_escapes /\ c <> 92.
Proof.
  unfold control_letter, simple_escapes. intros H.
  repeat match type of H with (if ?b then _ else _) = _ => let E := fresh in destruct b eqn:E; [apply Z.eqb_eq in E; subst; assert (l = l) by reflexivity; injection H as <-; split; [cbn; tauto|lia]|] end.
  discriminate.
Qed.

Lemma escape_utf8_unescapes st cps s : u_no_backslash st = false -> u_no_hex st = false -> text8 cps s ->
  forall f, (length s <= f)%nat -> unescapes (escape_utf8_loop f st s) s.
Proof.
  intros NB NX T. induction T as [|cp c cps s C T IH]; intros f F.
  - destruct f; constructor.
  - assert (Lc := char8_len _ _ C). rewrite app_length in F. destruct f as [|f]; [lia|]. specialize (IH f ltac:(lia)).
    pose proof (iterate_char cp c s C) as N. destruct (c ++ s) as [|b t] eqn:E; [kill_nil|]. cbn [escape_utf8_loop]. rewrite N.
    replace (skipn (length c) (b :: t)) with s by (rewrite <- E, skipn_app_exact; reflexivity).
    replace (firstn (length c) (b :: t)) with c by (rewrite <- E, firstn_app, firstn_all, Nat.sub_diag, app_nil_r; reflexivity).
    rewrite NB, NX. cbn [andb negb]. cbn zeta. rewrite <- E. set (e := escape_utf8_loop f st s) in *. clearbody e.
    destruct (Z.ltb_spec cp 128) as [LT|GE].
    + assert (c = [cp]) as ->. { destruct C as (S1 & C & W). apply carries_ascii; auto. }
      cbn [app] in *. assert (b = cp) as -> by congruence.
      destruct (Z.eqb_spec cp 92) as [-> | N1]; [cbn [app]; apply ue_simple; [cbn; tauto|exact IH]|].
      destruct (Z.eqb_spec cp 34) as [-> | N2].
      { destruct (u_quotes st); cbn [andb control_letter Z.eqb Pos.eqb app]; [apply ue_simple; [cbn; tauto|exact IH]|apply ue_plain; [lia|exact IH]]. }
      cbn [andb]. destruct (control_letter cp) as [l|] eqn:CL.
      * destruct (u_no_control st); cbn [app]; [apply ue_plain; auto|]. apply ue_simple; [apply control_letter_spec, CL|exact IH].
      * cbn [app]. apply ue_plain; auto.
    + pose proof (char8_high _ _ C GE) as H. replace (cp =? 92) with false by lia. replace (cp =? 34) with false by lia. cbn [andb].
      assert (b >= 128). { destruct c as [|x c]; [cbn in Lc; lia|]. cbn in E. inversion H; subst. assert (x = b) by congruence. lia. }
      assert (CL : control_letter b = None). { unfold control_letter. repeat match goal with |- context [b =? ?n] => replace (b =? n) with false by lia end. reflexivity. }
      rewrite CL. apply unescapes_high; auto.
Qed.

Lemma control_letter_iff c l : control_letter c = Some l <-> In (c, l) letter_of.
Proof.
  unfold control_letter, letter_of. split.
  - intros H. repeat match type of H with (if ?b then _ else _) = _ => let E := fresh in destruct b eqn:E; [apply Z.eqb_eq in E; subst; injection H as <-; cbn; tauto|] end. discriminate.
  - cbn [In]. intros H. repeat match type of H with _ \/ _ => destruct H as [H|H] end; try contradiction; injection H as <- <-; reflexivity.
Qed.
Lemma char8_ascii b : 0 <= b < 128 -> char8 b [b].
Proof. intros H. split; [unfold scalar; lia|]. split; [left; auto|]. unfold width8. replace (b <? 128) with true by lia. reflexivity. Qed.
Lemma escape_renders st s : Forall is_byte s -> forall f, (length s <= f)%nat ->
  renders (u_quotes st) (u_no_backslash st) (u_no_control st) (u_no_hex st) s (escape_utf8_loop f st s).
Proof.
  remember (length s) as n eqn:L. revert s L. induction n as [n IH] using (well_founded_induction lt_wf). intros s -> F f Lf.
  destruct s as [|b s0]; [destruct f; constructor|]. destruct f as [|f]; [cbn in Lf; lia|]. cbn [escape_utf8_loop].
  pose proof (iterate_spec (b :: s0) ltac:(discriminate) F) as N. destruct (iterate (b :: s0)) as [[cp n]|]; [|apply ren_illegal; [discriminate|exact N]].
  destruct N as (c & t & E & <- & C). cbn zeta. 
  replace (skipn (length c) (b :: s0)) with t by (rewrite E, skipn_app_exact; reflexivity).
  replace (firstn (length c) (b :: s0)) with c by (rewrite E, firstn_app, firstn_all, Nat.sub_diag, app_nil_r; reflexivity).
  assert (Lc := char8_len _ _ C). rewrite E in F. apply Forall_app in F. rewrite E, app_length in Lf.
  assert (R : renders (u_quotes st) (u_no_backslash st) (u_no_control st) (u_no_hex st) t (escape_utf8_loop f st t)).
  { apply (IH (length t)); auto; try tauto; [rewrite E, app_length|]; lia. }
  set (e := escape_utf8_loop f st t) in *. clearbody e. clear IH.
  destruct (Z.ltb_spec cp 128) as [LT|GE].
  - assert (c = [cp]) as ->. { destruct C as (S1 & C' & W). apply carries_ascii; auto. } cbn [app] in E. apply cons_inj in E. destruct E as [-> ->].
    destruct (Z.eqb_spec cp 92) as [-> | N1].
    { destruct (u_no_hex st) eqn:X; cbn [andb].
      - destruct (prefixb [120] t) eqn:P.
        + cbn [app]. apply ren_bare_backslash; auto. right. split; auto. destruct t as [|y t]; [discriminate P|]. cbn [prefixb] in P. exists t. f_equal. apply andb_true_iff in P. destruct P as [P _]. apply Z.eqb_eq in P. congruence.
        + destruct (u_no_backslash st) eqn:B; cbn [negb app]; [apply ren_bare_backslash; auto|apply ren_backslash; auto]. right. intros u ->. cbn in P. discriminate P.
      - destruct (u_no_backslash st) eqn:B; cbn [negb app]; [apply ren_bare_backslash; auto|apply ren_backslash; auto]. }
    destruct (Z.eqb_spec cp 34) as [-> | N2]; cbn [andb].
    { destruct (u_quotes st) eqn:Q; cbn [app control_letter Z.eqb Pos.eqb].
      - apply ren_quote; auto.
      - apply (ren_char _ _ _ _ 34 [34]); auto. cbn [letter_of In]. intros l H. intuition congruence. }
    destruct (control_letter cp) as [l|] eqn:CL.
    + pose proof (proj1 (control_letter_iff _ _) CL) as CI. destruct (u_no_control st) eqn:NC; cbn [app].
      * apply (ren_char _ _ _ _ cp [cp]); auto. intros; contradiction.
      * apply ren_control; auto.
    + apply (ren_char _ _ _ _ cp [cp]); auto; [intros; contradiction|]. intros l H. apply control_letter_iff in H. congruence.
  - pose proof (char8_high _ _ C GE) as H. replace (cp =? 92) with false by lia. replace (cp =? 34) with false by lia. cbn [andb].
    assert (b >= 128). { destruct c as [|x c]; [cbn in Lc; lia|]. cbn in E. inversion H; subst. assert (x = b) by congruence. lia. }
    assert (CL : control_letter b = None). { unfold control_letter. repeat match goal with |- context [b =? ?n] => replace (b =? n) with false by lia end. reflexivity. }
    rewrite CL, E. apply (ren_char _ _ _ _ cp c); auto; [lia|lia|]. cbn [letter_of In]. intros l I1. exfalso.
    repeat match type of I1 with _ \/ _ => destruct I1 as [I1|I1] end; try contradiction; injection I1 as Q _; lia.
Qed.
