(** Proofs for C62-C66, part 1: UTF-8 and UTF-16, one character at a time. *)
From Verif Require Import Base StrModel UniModel UniSpec.
Open Scope Z_scope.

Ltac cmp :=
  repeat match goal with
         | |- context [Z.ltb ?a ?b] => destruct (Z.ltb_spec a b); try lia
         | |- context [Z.leb ?a ?b] => destruct (Z.leb_spec a b); try lia
         | |- context [Z.eqb ?a ?b] => destruct (Z.eqb_spec a b); try lia
         end.

Lemma valid_cp_spec cp : valid_cp cp = true <-> scalar cp.
Proof. unfold valid_cp, scalar. cmp; cbn; split; intros; try discriminate; try reflexivity; lia. Qed.
Lemma valid_cp_false cp : valid_cp cp = false <-> ~ scalar cp.
Proof. rewrite <- valid_cp_spec. destruct (valid_cp cp); split; intros; try discriminate; try reflexivity; try congruence. Qed.

Lemma is_trail_spec b : is_trail b = true <-> exists x, b = 128 + x /\ bits6 x.
Proof.
  unfold is_trail, bits6. split.
  - intros H. exists (b - 128). lia.
  - intros (x & -> & H). cmp; reflexivity.
Qed.
Lemma is_trail_ok x : bits6 x -> is_trail (128 + x) = true.
Proof. intros H. apply is_trail_spec. eauto. Qed.

(** ** the classification of a position *)
Lemma next8_carries cp c r : carries cp c ->
  next8 (c ++ r) = if negb (valid_cp cp) then N8CodePoint else if overlong cp (length c) then N8Invalid else N8 cp (length c).
Proof.
  intros [(-> & H)|[(a & b & -> & H1 & H2 & ->)|[(a & b & d & -> & H1 & H2 & H3 & ->)|(a & b & d & e & -> & H1 & H2 & H3 & H4 & ->)]]].
  - cbn [app next8 length]. unfold seq_len, lead_bits. cmp. cbn [trails]. reflexivity.
  - cbn [app next8 length]. unfold seq_len, lead_bits. cmp. cbn [trails]. rewrite is_trail_ok by assumption.
    replace ((192 + a - 192) * 64 + (128 + b - 128)) with (a * 64 + b) by lia. reflexivity.
  - cbn [app next8 length]. unfold seq_len, lead_bits. cmp. cbn [trails]. rewrite !is_trail_ok by assumption.
    replace (((224 + a - 224) * 64 + (128 + b - 128)) * 64 + (128 + d - 128)) with ((a * 64 + b) * 64 + d) by lia. reflexivity.
  - cbn [app next8 length]. unfold seq_len, lead_bits. cmp. cbn [trails]. rewrite !is_trail_ok by assumption.
    replace ((((240 + a - 240) * 64 + (128 + b - 128)) * 64 + (128 + d - 128)) * 64 + (128 + e - 128)) with (((a * 64 + b) * 64 + d) * 64 + e) by lia. reflexivity.
Qed.

Lemma carries_width cp c : carries cp c -> (overlong cp (length c) = false <-> length c = width8 cp).
Proof.
  unfold overlong, width8, carries, bits6.
  intros [(-> & H)|[(a & b & -> & H1 & H2 & ->)|[(a & b & d & -> & H1 & H2 & H3 & ->)|(a & b & d & e & -> & H1 & H2 & H3 & H4 & ->)]]];
    cbn [length]; cmp; cbn; split; intros; try discriminate; reflexivity.
Qed.

Lemma next8_char cp c r : char8 cp c -> next8 (c ++ r) = N8 cp (length c).
Proof.
  intros (S1 & C & W). rewrite (next8_carries cp c r C). apply valid_cp_spec in S1. rewrite S1.
  apply carries_width in C. destruct C as [_ C]. rewrite (C W). reflexivity.
Qed.
Lemma next8_not_scalar s : not_scalar s -> next8 s = N8CodePoint.
Proof.
  intros (cp & c & r & -> & C & N). rewrite (next8_carries cp c r C). apply valid_cp_false in N. rewrite N. reflexivity.
Qed.
Lemma cons_inj {A} (x y : A) a b : x :: a = y :: b -> x = y /\ a = b.
Proof. intros E. split; congruence. Qed.
Lemma next8_cut_off s : cut_off s -> next8 s = N8Short.
Proof.
  intros (N & cp & r & R & [(E & H)|[(a & b & E & H1 & H2 & _)|[(a & b & d & E & H1 & H2 & H3 & _)|(a & b & d & e & E & H1 & H2 & H3 & H4 & _)]]]).
  - destruct s as [|x [|y s]]; [congruence| |discriminate E]. cbn [app] in E. destruct r; [congruence|discriminate E].
  - destruct s as [|x s]; [congruence|]. cbn [app] in E. apply cons_inj in E; destruct E as [-> E]. destruct s as [|y s].
    + cbn [next8]. unfold seq_len. cmp. reflexivity.
    + cbn [app] in E. apply cons_inj in E; destruct E as [-> E]. destruct s; [destruct r; [congruence|discriminate E]|discriminate E].
  - destruct s as [|x s]; [congruence|]. cbn [app] in E. apply cons_inj in E; destruct E as [-> E]. cbn [next8]. unfold seq_len. cmp.
    destruct s as [|y s]; [reflexivity|]. cbn [app] in E. apply cons_inj in E; destruct E as [-> E]. cbn [trails]. rewrite is_trail_ok by assumption.
    destruct s as [|z s]; [reflexivity|]. cbn [app] in E. apply cons_inj in E; destruct E as [-> E].
    destruct s; [destruct r; [congruence|discriminate E]|discriminate E].
  - destruct s as [|x s]; [congruence|]. cbn [app] in E. apply cons_inj in E; destruct E as [-> E]. cbn [next8]. unfold seq_len. cmp.
    destruct s as [|y s]; [reflexivity|]. cbn [app] in E. apply cons_inj in E; destruct E as [-> E]. cbn [trails]. rewrite is_trail_ok by assumption.
    destruct s as [|z s]; [reflexivity|]. cbn [app] in E. apply cons_inj in E; destruct E as [-> E]. rewrite is_trail_ok by assumption.
    destruct s as [|w s]; [reflexivity|]. cbn [app] in E. apply cons_inj in E; destruct E as [-> E].
    destruct s; [destruct r; [congruence|discriminate E]|discriminate E].
Qed.

(** What the trail bytes are. *)
Lemma trails_spec k : forall acc s,
  match trails k acc s with
  | N8 cp _ => exists bs r, s = map (Z.add 128) bs ++ r /\ length bs = k /\ Forall bits6 bs /\ cp = fold_left (fun a b => a * 64 + b) bs acc
  | N8Short => exists bs, s = map (Z.add 128) bs /\ (length bs < k)%nat /\ Forall bits6 bs
  | N8CodePoint => False
  | N8Invalid => True
  end.
Proof.
  induction k as [|k IH]; intros acc s; cbn [trails].
  - exists [], s. repeat split; auto.
  - destruct s as [|b s]; [exists []; repeat split; [cbn; lia|constructor]|].
    destruct (is_trail b) eqn:T; [|exact I]. apply is_trail_spec in T. destruct T as (x & -> & X).
    replace (128 + x - 128) with x by lia.
    specialize (IH (acc * 64 + x) s). destruct (trails k (acc * 64 + x) s); auto.
    + destruct IH as (bs & r & -> & L & F & ->). exists (x :: bs), r. repeat split; cbn; auto.
    + destruct IH as (bs & -> & L & F). exists (x :: bs). repeat split; cbn; auto. lia.
Qed.

Lemma seq_len_cases b : is_byte b ->
  (seq_len b = 0%nat) \/ (seq_len b = 1%nat /\ 0 <= b < 128 /\ lead_bits b = b) \/
  (exists a, b = 192 + a /\ 0 <= a < 32 /\ seq_len b = 2%nat /\ lead_bits b = a) \/
  (exists a, b = 224 + a /\ 0 <= a < 16 /\ seq_len b = 3%nat /\ lead_bits b = a) \/
  (exists a, b = 240 + a /\ 0 <= a < 8 /\ seq_len b = 4%nat /\ lead_bits b = a).
Proof.
  unfold is_byte, seq_len, lead_bits. intros H.
  destruct (Z.ltb_spec b 128); [right; left; cmp; repeat split; lia|].
  destruct (Z.ltb_spec b 192); [left; reflexivity|].
  destruct (Z.ltb_spec b 224); [right; right; left; exists (b - 192); repeat split; lia|].
  destruct (Z.ltb_spec b 240); [do 3 right; left; exists (b - 224); repeat split; lia|].
  destruct (Z.ltb_spec b 248); [do 4 right; exists (b - 240); repeat split; lia|left; reflexivity].
Qed.

Lemma next8_spec s : s <> [] -> Forall is_byte s ->
  match next8 s with
  | N8 cp n => exists c r, s = c ++ r /\ length c = n /\ char8 cp c
  | N8Short => cut_off s
  | N8CodePoint => not_scalar s
  | N8Invalid => garbage s
  end.
Proof.
  intros NE F. destruct (next8 s) as [cp n| | |] eqn:E.
  2: { split; [exact NE|]. split; [|split].
       - intros cp c r -> C. rewrite (next8_char _ _ _ C) in E. discriminate.
       - intros C. rewrite (next8_cut_off _ C) in E. discriminate.
       - intros C. rewrite (next8_not_scalar _ C) in E. discriminate. }
  all: destruct s as [|b s]; [congruence|]; inversion F as [|? ? B F']; subst; cbn [next8] in E.
  all: destruct (seq_len_cases b B) as [L|[(L & R & LB)|[(a & -> & R & L & LB)|[(a & -> & R & L & LB)|(a & -> & R & L & LB)]]]]; rewrite L in E; try discriminate E; rewrite LB in E.
  all: match type of E with context [trails ?k ?a ?s] => pose proof (trails_spec k a s) as T; destruct (trails k a s) as [cp' n'| | |] end; try discriminate E; try contradiction.
  all: try (destruct (valid_cp cp') eqn:V; cbn [negb] in E; [|try discriminate E]).
  all: try match type of E with (if ?o then _ else _) = _ => destruct o eqn:O; try discriminate E end.
  all: try (destruct T as (bs & r & -> & Lb & Fb & Cp)).
  all: try (destruct T as (bs & -> & Lb & Fb)).
  all: try match type of E with N8 _ _ = N8 _ _ => injection E as <- <- end.
  (* characters *)
  - destruct bs; [|discriminate]. cbn in Cp. subst cp'.
    assert (C : carries b [b]) by (left; auto).
    exists [b], r. split; [reflexivity|]. split; [reflexivity|]. split; [apply valid_cp_spec, V|].
    split; [exact C|]. apply carries_width; [exact C|exact O].
  - destruct bs as [|x [|]]; try discriminate. inversion Fb; subst.
    assert (C : carries (a * 64 + x) [192 + a; 128 + x]) by (right; left; exists a, x; auto).
    exists [192 + a; 128 + x], r. cbn [fold_left] in *. split; [reflexivity|]. split; [reflexivity|]. split; [apply valid_cp_spec, V|].
    split; [exact C|]. apply carries_width; [exact C|exact O].
  - destruct bs as [|x [|y [|]]]; try discriminate. inversion Fb as [|? ? X Fb']; subst. inversion Fb' as [|? ? Y _]; subst.
    assert (C : carries ((a * 64 + x) * 64 + y) [224 + a; 128 + x; 128 + y]) by (do 2 right; left; exists a, x, y; auto 10).
    exists [224 + a; 128 + x; 128 + y], r. cbn [fold_left] in *. split; [reflexivity|]. split; [reflexivity|]. split; [apply valid_cp_spec, V|].
    split; [exact C|]. apply carries_width; [exact C|exact O].
  - destruct bs as [|x [|y [|z [|]]]]; try discriminate. inversion Fb as [|? ? X Fb']; subst. inversion Fb' as [|? ? Y Fb'']; subst. inversion Fb'' as [|? ? Z _]; subst.
    assert (C : carries (((a * 64 + x) * 64 + y) * 64 + z) [240 + a; 128 + x; 128 + y; 128 + z]) by (do 3 right; exists a, x, y, z; auto 10).
    exists [240 + a; 128 + x; 128 + y; 128 + z], r. cbn [fold_left] in *. split; [reflexivity|]. split; [reflexivity|]. split; [apply valid_cp_spec, V|].
    split; [exact C|]. apply carries_width; [exact C|exact O].
  (* cut off *)
  - cbn in Lb; lia.
  - destruct bs; [|cbn in Lb; lia]. split; [congruence|]. exists (a * 64 + 0), [128 + 0]. split; [congruence|].
    right; left. exists a, 0. repeat split; try lia. 
  - assert (B0 : bits6 0) by (unfold bits6; lia).
    destruct bs as [|x [|y bs]]; [| |cbn in Lb; lia].
    + split; [congruence|]. exists ((a * 64 + 0) * 64 + 0), [128 + 0; 128 + 0]. split; [congruence|]. do 2 right; left. exists a, 0, 0. auto.
    + inversion Fb; subst. split; [cbn; congruence|]. exists ((a * 64 + x) * 64 + 0), [128 + 0]. split; [congruence|]. do 2 right; left. exists a, x, 0. auto.
  - assert (B0 : bits6 0) by (unfold bits6; lia).
    destruct bs as [|x [|y [|z bs]]]; [| | |cbn in Lb; lia].
    + split; [congruence|]. exists (((a * 64 + 0) * 64 + 0) * 64 + 0), [128 + 0; 128 + 0; 128 + 0]. split; [congruence|]. do 3 right. exists a, 0, 0, 0. auto 10.
    + inversion Fb; subst. split; [cbn; congruence|]. exists (((a * 64 + x) * 64 + 0) * 64 + 0), [128 + 0; 128 + 0]. split; [congruence|]. do 3 right. exists a, x, 0, 0. auto 10.
    + inversion Fb as [|? ? X Fb']; subst. inversion Fb'; subst. split; [cbn; congruence|]. exists (((a * 64 + x) * 64 + y) * 64 + 0), [128 + 0]. split; [congruence|]. do 3 right. exists a, x, y, 0. auto 10.
  (* not a scalar value *)
  - destruct bs; [|discriminate]. cbn in Cp. subst cp'. exfalso. apply valid_cp_false in V. apply V. unfold scalar; lia.
  - destruct bs as [|x [|]]; try discriminate. inversion Fb; subst. exists (a * 64 + x), [192 + a; 128 + x], r. split; [reflexivity|].
    split; [right; left; exists a, x; auto|apply valid_cp_false, V].
  - destruct bs as [|x [|y [|]]]; try discriminate. inversion Fb as [|? ? X Fb']; subst. inversion Fb' as [|? ? Y _]; subst.
    exists ((a * 64 + x) * 64 + y), [224 + a; 128 + x; 128 + y], r. split; [reflexivity|].
    split; [do 2 right; left; exists a, x, y; auto 10|apply valid_cp_false, V].
  - destruct bs as [|x [|y [|z [|]]]]; try discriminate. inversion Fb as [|? ? X Fb']; subst. inversion Fb' as [|? ? Y Fb'']; subst. inversion Fb'' as [|? ? Z _]; subst.
    exists (((a * 64 + x) * 64 + y) * 64 + z), [240 + a; 128 + x; 128 + y; 128 + z], r. split; [reflexivity|].
    split; [do 3 right; exists a, x, y, z; auto 10|apply valid_cp_false, V].
Qed.

(** ** the encoder *)
Lemma utf8_encode_carries cp : 0 <= cp < 1114112 -> carries cp (utf8_encode cp) /\ length (utf8_encode cp) = width8 cp.
Proof.
  intros H. unfold utf8_encode, width8, carries, bits6. cmp; cbn [length]; (split; [|reflexivity]).
  - left. split; [reflexivity|lia].
  - right; left. exists (cp / 64), (cp mod 64). split; [reflexivity|]. Z.to_euclidean_division_equations; lia.
  - do 2 right; left. exists (cp / 4096), ((cp / 64) mod 64), (cp mod 64). split; [reflexivity|]. Z.to_euclidean_division_equations; lia.
  - do 3 right. exists (cp / 262144), ((cp / 4096) mod 64), ((cp / 64) mod 64), (cp mod 64). split; [reflexivity|]. Z.to_euclidean_division_equations; lia.
Qed.
Lemma utf8_encode_char cp : scalar cp -> char8 cp (utf8_encode cp).
Proof. intros S1. split; [exact S1|]. apply utf8_encode_carries. apply S1. Qed.

Lemma carries_fun cp c c' : carries cp c -> carries cp c' -> length c = length c' -> c = c'.
Proof.
  unfold carries, bits6.
  intros [(-> & H)|[(a & b & -> & H1 & H2 & E)|[(a & b & d & -> & H1 & H2 & H3 & E)|(a & b & d & e & -> & H1 & H2 & H3 & H4 & E)]]]
         [(-> & H')|[(a' & b' & -> & H1' & H2' & E')|[(a' & b' & d' & -> & H1' & H2' & H3' & E')|(a' & b' & d' & e' & -> & H1' & H2' & H3' & H4' & E')]]];
    cbn [length]; intros L; try discriminate L; clear L; subst; repeat f_equal; lia.
Qed.
Lemma char8_encode cp c : char8 cp c -> c = utf8_encode cp.
Proof.
  intros (S1 & C & W). destruct (utf8_encode_char cp S1) as (_ & C' & W'). apply (carries_fun cp); auto. congruence.
Qed.
Lemma char8_nonempty cp c : char8 cp c -> c <> [].
Proof. intros (_ & _ & W) ->. unfold width8 in W. cbn in W. destruct (cp <? 128), (cp <? 2048), (cp <? 65536); discriminate. Qed.
Lemma carries_bytes cp c : carries cp c -> Forall is_byte c.
Proof.
  unfold carries, bits6.
  intros [(-> & H)|[(a & b & -> & H1 & H2 & E)|[(a & b & d & -> & H1 & H2 & H3 & E)|(a & b & d & e & -> & H1 & H2 & H3 & H4 & E)]]];
    repeat constructor; unfold is_byte; lia.
Qed.
Lemma text8_bytes cps s : text8 cps s -> Forall is_byte s.
Proof. induction 1 as [|cp c cps s (? & C & ?) _ IH]; [constructor|]. apply Forall_app. split; [apply (carries_bytes cp), C|exact IH]. Qed.
Lemma text8_encode cps s : text8 cps s -> s = flat_map utf8_encode cps /\ Forall scalar cps.
Proof.
  induction 1 as [|cp c cps s C _ [IH1 IH2]]; [split; constructor|]. cbn [flat_map]. rewrite <- IH1, <- (char8_encode _ _ C).
  split; [reflexivity|]. constructor; [apply C|exact IH2].
Qed.
Lemma text8_of cps : Forall scalar cps -> text8 cps (flat_map utf8_encode cps).
Proof. induction 1; cbn; constructor; auto using utf8_encode_char. Qed.
Lemma text8_fun cps cps' s : text8 cps s -> text8 cps' s -> cps = cps'.
Proof.
  intros T. revert cps'. induction T as [|cp c cps s C T IH]; intros cps' T'.
  - inversion T' as [|cp' c' ? s' C' ? Q1 Q2]; [reflexivity|]. apply app_eq_nil in Q2. destruct Q2 as [Q2 _]. now apply char8_nonempty in C'.
  - inversion T' as [Q1 Q2|cp' c' cps1 s' C' T1 Q1 Q2].
    + symmetry in Q2. apply app_eq_nil in Q2. destruct Q2 as [Q2 _]. now apply char8_nonempty in C.
    + assert (N : next8 (c ++ s) = next8 (c' ++ s')) by congruence. rewrite (next8_char _ _ _ C), (next8_char _ _ _ C') in N.
      injection N as -> L. assert (E : s = s'). { apply (f_equal (skipn (length c))) in Q2. rewrite L in Q2 at 1. rewrite !skipn_app, !skipn_all, L, !Nat.sub_diag in Q2. symmetry. exact Q2. }
      subst s'. f_equal. apply IH. exact T1.
Qed.
