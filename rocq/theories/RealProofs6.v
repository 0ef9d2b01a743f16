From Flocq Require Import Core BinarySingleNaN Binary Bits Relative.
From Coq Require Import Reals Lra.
From Verif Require Import Base IntModel IntSpec IntProofs TimeModel RealModel RealSpec RealProofs RealProofs5.
Open Scope Z_scope.

Lemma split_ieee : forall mw ew s e m, 0 < mw -> 0 < ew -> 0 <= m < 2 ^ mw -> 0 <= e < 2 ^ ew ->
  split_bits mw ew (ieee_bits mw ew s e m) = (s, m, e).
Proof.
  intros mw ew s e m Hm He Bm Be. replace (ieee_bits mw ew s e m) with (join_bits mw ew s m e).
  - apply split_join_bits; auto.
  - unfold join_bits, ieee_bits. rewrite Z.shiftl_mul_pow2 by lia. rewrite Z.pow_add_r by lia. destruct s; ring.
Qed.

Lemma b64_ieee : forall s e m, 0 <= m < 2 ^ 52 -> 0 <= e < 2 ^ 11 ->
  let d := b64_of_bits (ieee_bits 52 11 s e m) in
  (e < 2047 -> finite d /\ dval d = ieee_value 52 11 s e m) /\
  (e = 2047 -> m = 0 -> d = B754_infinity 53 1024 s) /\
  (e = 2047 -> m <> 0 -> is_nan 53 1024 d = true) /\ (e < 2047 \/ m = 0 -> Bsign 53 1024 d = s).
Proof.
  intros s e m Hm He d.
  assert (E : B2FF 53 1024 d = binary_float_of_bits_aux 52 11 (ieee_bits 52 11 s e m)) by apply B2FF_FF2B.
  unfold binary_float_of_bits_aux in E. rewrite split_ieee in E by lia.
  assert (V : dval d = FF2R radix2 (B2FF 53 1024 d)) by (symmetry; apply FF2R_B2FF). clearbody d.
  unfold ieee_value. change (2 ^ (11 - 1) - 1) with 1023.
  destruct (Zeq_bool e 0) eqn:Z0.
  - apply Zeq_bool_eq in Z0. subst e. cbn [Z.eqb]. destruct m as [|p|p]; [| |lia]; rewrite E in V; cbn [FF2R] in V.
    + repeat split; try lia; [destruct d; cbn in E; try discriminate; reflexivity|rewrite V; ring|].
      intros _. destruct d; cbn in E; try discriminate; cbn; congruence.
    + repeat split; try lia; [destruct d; cbn in E; try discriminate; reflexivity| |].
      * rewrite V. unfold F2R. cbn [Fnum Fexp]. change (1 - 1023 - 52) with (SpecFloat.emin (52 + 1) (2 ^ (11 - 1))).
        destruct s; cbn [cond_Zopp]; rewrite ?opp_IZR; ring.
      * intros _. destruct d; cbn in E; try discriminate; cbn; congruence.
  - apply Zeq_bool_neq in Z0. destruct (Z.eqb_spec e 0); [lia|]. destruct (Zeq_bool e (2 ^ 11 - 1)) eqn:Z1.
    + apply Zeq_bool_eq in Z1. change (2 ^ 11 - 1) with 2047 in Z1. subst e. destruct m as [|p|p]; [| |lia].
      * repeat split; try lia.
        -- intros _ _. apply B2FF_inj. rewrite E. reflexivity.
        -- intros _. destruct d; cbn in E; try discriminate; cbn; congruence.
      * repeat split; try lia. intros _ _. destruct d; cbn in E; try discriminate; reflexivity.
    + apply Zeq_bool_neq in Z1. change (2 ^ 11 - 1) with 2047 in Z1. assert (P : m + 2 ^ 52 > 0) by lia.
      destruct (m + 2 ^ 52) as [|p|p] eqn:Ep; try lia. rewrite E in V; cbn [FF2R] in V.
      repeat split; try lia; [destruct d; cbn in E; try discriminate; reflexivity| |].
      * rewrite V. unfold F2R. cbn [Fnum Fexp]. replace (2 ^ 52 + m) with (Zpos p) by lia.
        change (SpecFloat.emin (52 + 1) (2 ^ (11 - 1))) with (-1074). replace (e + -1074 - 1) with (e - 1023 - 52) by lia.
        destruct s; cbn [cond_Zopp]; rewrite ?opp_IZR; ring.
      * intros _. destruct d; cbn in E; try discriminate; cbn; congruence.
Qed.

Lemma b32_ieee : forall s e m, 0 <= m < 2 ^ 23 -> 0 <= e < 2 ^ 8 ->
  let d := b32_of_bits (ieee_bits 23 8 s e m) in
  (e < 255 -> is_finite 24 128 d = true /\ fval d = ieee_value 23 8 s e m) /\
  (e = 255 -> m = 0 -> d = B754_infinity 24 128 s) /\
  (e = 255 -> m <> 0 -> is_nan 24 128 d = true) /\ (e < 255 \/ m = 0 -> Bsign 24 128 d = s).
Proof.
  intros s e m Hm He d.
  assert (E : B2FF 24 128 d = binary_float_of_bits_aux 23 8 (ieee_bits 23 8 s e m)) by apply B2FF_FF2B.
  unfold binary_float_of_bits_aux in E. rewrite split_ieee in E by lia.
  assert (V : fval d = FF2R radix2 (B2FF 24 128 d)) by (symmetry; apply FF2R_B2FF). clearbody d.
  unfold ieee_value. change (2 ^ (8 - 1) - 1) with 127.
  destruct (Zeq_bool e 0) eqn:Z0.
  - apply Zeq_bool_eq in Z0. subst e. cbn [Z.eqb]. destruct m as [|p|p]; [| |lia]; rewrite E in V; cbn [FF2R] in V.
    + repeat split; try lia; [destruct d; cbn in E; try discriminate; reflexivity|rewrite V; ring|].
      intros _. destruct d; cbn in E; try discriminate; cbn; congruence.
    + repeat split; try lia; [destruct d; cbn in E; try discriminate; reflexivity| |].
      * rewrite V. unfold F2R. cbn [Fnum Fexp]. change (1 - 127 - 23) with (SpecFloat.emin (23 + 1) (2 ^ (8 - 1))).
        destruct s; cbn [cond_Zopp]; rewrite ?opp_IZR; ring.
      * intros _. destruct d; cbn in E; try discriminate; cbn; congruence.
  - apply Zeq_bool_neq in Z0. destruct (Z.eqb_spec e 0); [lia|]. destruct (Zeq_bool e (2 ^ 8 - 1)) eqn:Z1.
    + apply Zeq_bool_eq in Z1. change (2 ^ 8 - 1) with 255 in Z1. subst e. destruct m as [|p|p]; [| |lia].
      * repeat split; try lia.
        -- intros _ _. apply B2FF_inj. rewrite E. reflexivity.
        -- intros _. destruct d; cbn in E; try discriminate; cbn; congruence.
      * repeat split; try lia. intros _ _. destruct d; cbn in E; try discriminate; reflexivity.
    + apply Zeq_bool_neq in Z1. change (2 ^ 8 - 1) with 255 in Z1. assert (P : m + 2 ^ 23 > 0) by lia.
      destruct (m + 2 ^ 23) as [|p|p] eqn:Ep; try lia. rewrite E in V; cbn [FF2R] in V.
      repeat split; try lia; [destruct d; cbn in E; try discriminate; reflexivity| |].
      * rewrite V. unfold F2R. cbn [Fnum Fexp]. replace (2 ^ 23 + m) with (Zpos p) by lia.
        change (SpecFloat.emin (23 + 1) (2 ^ (8 - 1))) with (-149). replace (e + -149 - 1) with (e - 127 - 23) by lia.
        destruct s; cbn [cond_Zopp]; rewrite ?opp_IZR; ring.
      * intros _. destruct d; cbn in E; try discriminate; cbn; congruence.
Qed.

(** single: pack then unpack *)
Lemma single_roundtrip_raw : forall hl d o rest, o <> Undef ->
  exists bs, real_pack hl d Single o = Ok bs /\ length bs = 4%nat /\
    real_unpack hl (bs ++ rest) Single o = Ok (Some (to_double (to_single d), rest)).
Proof.
  intros hl d o rest Ho. destruct (pack_unpack hl u32 (bits_of_b32 (to_single d)) o rest (bits32_range _)) as (bs & P & L & U); [discriminate|exact Ho|].
  exists bs. split; [exact P|]. split; [exact L|]. unfold real_unpack.
  destruct (Nat.ltb_spec (length (bs ++ rest)) 4) as [H|H]; [rewrite app_length, L in H; change (nbytes (it_width u32)) with 4%nat in H; lia|].
  rewrite U. cbn. rewrite of_bits32. reflexivity.
Qed.

Lemma to_double_inf : forall s, to_double (B754_infinity 24 128 s) = B754_infinity 53 1024 s.
Proof. reflexivity. Qed.

Lemma single_values : forall d, let d' := to_double (to_single d) in
  (finite d -> (Rabs (nearest32 (dval d)) < bpow radix2 128)%R ->
     finite d' /\ dval d' = nearest32 (dval d) /\ Bsign 53 1024 d' = Bsign 53 1024 d) /\
  (finite d -> (bpow radix2 128 <= Rabs (nearest32 (dval d)))%R -> d' = B754_infinity 53 1024 (Bsign 53 1024 d)) /\
  (forall s, d = B754_infinity 53 1024 s -> d' = d) /\
  (is_nan 53 1024 d = true -> is_nan 53 1024 d' = true /\ Bsign 53 1024 d' = Bsign 53 1024 d).
Proof.
  intros d d'. split; [|split; [|split]].
  - intros F L. generalize (to_single_finite d F). rewrite Rlt_bool_true by exact L. intros (A & B & C).
    destruct (to_double_finite _ A) as (X & Y & W). unfold d'. rewrite Y, W, B, C. auto.
  - intros F L. generalize (to_single_finite d F). rewrite Rlt_bool_false by exact L. intros A. unfold d'. rewrite A. reflexivity.
  - intros s E. unfold d'. rewrite E. reflexivity.
  - intros N. destruct d as [s|s|s pl H|s m e H]; try discriminate. unfold d'.
    destruct (to_single_nan s pl H) as (p1 & H1 & -> & _). destruct (to_double_nan s p1 H1) as (p2 & H2 & -> & _). split; reflexivity.
Qed.

(** numbers that fit are unchanged *)
Lemma single_exact : forall d, finite d -> nearest32 (dval d) = dval d -> (Rabs (dval d) < bpow radix2 128)%R ->
  to_double (to_single d) = d.
Proof.
  intros d F E L. destruct (single_values d) as (A & _). destruct A as (X & Y & W); [exact F|rewrite E; exact L|].
  apply B2R_Bsign_inj; [exact X|exact F|unfold dval in *; congruence|exact W].
Qed.

(** single: unpack then pack; a NaN becomes quiet *)
Lemma div_mul_exact : forall a, a * 2 ^ 29 / 2 ^ 29 = a.
Proof. intros. apply Z.div_mul. lia. Qed.

Lemma single_bits : forall f, bits_of_b32 (to_single (to_double f)) =
  if is_nan 24 128 f then Z.lor (bits_of_b32 f) (2 ^ 22) else bits_of_b32 f.
Proof.
  intros f. destruct (is_nan 24 128 f) eqn:N.
  - destruct f as [s|s|s pl H|s m e H]; try discriminate.
    destruct (to_double_nan s pl H) as (p1 & H1 & -> & E1). destruct (to_single_nan s p1 H1) as (p2 & H2 & -> & E2).
    assert (Hp : Zpos pl < 2 ^ 23) by (apply (nan_pl_lt 24); [lia|exact H]).
    assert (Q : Zpos p2 = Z.lor (2 ^ 22) (Zpos pl)).
    { rewrite E2, E1. replace (2 ^ 51) with (2 ^ 22 * 2 ^ 29) by reflexivity. rewrite <- !Z.shiftl_mul_pow2, <- Z.shiftl_lor, !Z.shiftl_mul_pow2 by lia.
      rewrite div_mul_exact, Z.lor_assoc, Z.lor_diag. reflexivity. }
    unfold bits_of_b32, bits_of_binary_float, join_bits. rewrite Z.shiftl_mul_pow2 by lia. rewrite Q.
    set (a := (if s then _ else _) + _). assert (L1 := lor_lt (2 ^ 22) (Zpos pl) 23 ltac:(lia) ltac:(lia) ltac:(lia)).
    rewrite <- (lor_disjoint a (Zpos pl)) by lia. rewrite <- lor_disjoint by lia. rewrite <- Z.lor_assoc. f_equal. apply Z.lor_comm.
  - destruct (is_finite 24 128 f) eqn:F.
    + rewrite single_double_single by exact F. reflexivity.
    + destruct f; try discriminate. reflexivity.
Qed.

Lemma single_bytes : forall hl bs rest o, o <> Undef -> Forall is_byte bs -> length bs = 4%nat ->
  exists d, real_unpack hl (bs ++ rest) Single o = Ok (Some (d, rest)) /\
    (is_nan 53 1024 d = false \/ Z.testbit (be_val (big_endian hl o bs)) 22 = true -> real_pack hl d Single o = Ok bs).
Proof.
  intros hl bs rest o Ho F L. assert (U := unpack_ok hl u32 bs rest o Ho L F).
  destruct (unpack_pack hl u32 bs rest o _ rest Ho F L U) as (R & _ & P).
  rewrite (real_unpack_app hl Single o bs rest 4 Ho F eq_refl L) by discriminate.
  eexists. split; [reflexivity|]. intros Q. unfold real_pack. rewrite single_bits.
  change (signed_of u32 ?x) with x in R, P. rewrite bits_of32 by exact R.
  replace (ordered_bytes hl o bs) with (big_endian hl o bs) in * by reflexivity.
  set (z := be_val (big_endian hl o bs)) in *. set (f := b32_of_bits z) in *.
  destruct (is_nan 24 128 f) eqn:N; [|apply P; discriminate].
  assert (B : Z.testbit z 22 = true).
  { destruct Q as [Q|Q]; [|exact Q]. destruct f as [s|s|s pl H|s m e H]; try discriminate.
    destruct (to_double_nan s pl H) as (p1 & H1 & E1 & _). rewrite E1 in Q. discriminate. }
  replace (Z.lor z (2 ^ 22)) with z; [apply P; discriminate|].
  apply Z.bits_inj'. intros i Hi. rewrite Z.lor_spec, Z.pow2_bits_eqb by lia. destruct (Z.eqb_spec 22 i) as [<- |].
  - rewrite B. reflexivity.
  - rewrite orb_false_r. reflexivity.
Qed.

Lemma real_short : forall hl bs t o, o <> Undef -> Forall is_byte bs -> t <> RUndef ->
  (real_unpack hl bs t o = Ok None <-> (length bs < match t with Single => 4 | _ => 8 end)%nat).
Proof.
  intros hl bs t o Ho F Ht. split.
  - intros E. destruct (Nat.lt_ge_cases (length bs) (match t with Single => 4 | _ => 8 end)) as [H|H]; [exact H|exfalso].
    rewrite <- (firstn_skipn (match t with Single => 4 | _ => 8 end)%nat bs) in E.
    rewrite (real_unpack_app hl t o _ _ (match t with Single => 4 | _ => 8 end)%nat Ho) in E; [discriminate| |reflexivity|rewrite firstn_length; lia|exact Ht].
    rewrite <- (firstn_skipn (match t with Single => 4 | _ => 8 end)%nat bs) in F. apply Forall_app in F. tauto.
  - intros H. destruct t; [| |congruence]; unfold real_unpack; apply Nat.ltb_lt in H; rewrite H; reflexivity.
Qed.
