From Flocq Require Import Core BinarySingleNaN Binary Bits Relative.
From Coq Require Import Reals Lra.
From Verif Require Import Base IntModel IntSpec IntProofs TimeModel RealModel RealSpec RealProofs.
Open Scope Z_scope.

Lemma bits64_range : forall d, in_type u64 (bits_of_b64 d).
Proof. intros d. apply (bits_of_binary_float_range 52 11 eq_refl eq_refl d). Qed.
Lemma bits32_range : forall d, in_type u32 (bits_of_b32 d).
Proof. intros d. apply (bits_of_binary_float_range 23 8 eq_refl eq_refl d). Qed.
Lemma of_bits64 : forall d, b64_of_bits (bits_of_b64 d) = d.
Proof. intros. exact (binary_float_of_bits_of_binary_float 52 11 eq_refl eq_refl eq_refl d). Qed.
Lemma of_bits32 : forall d, b32_of_bits (bits_of_b32 d) = d.
Proof. intros. exact (binary_float_of_bits_of_binary_float 23 8 eq_refl eq_refl eq_refl d). Qed.
Lemma bits_of64 : forall z, 0 <= z < 2 ^ 64 -> bits_of_b64 (b64_of_bits z) = z.
Proof. intros z H. exact (bits_of_binary_float_of_bits 52 11 eq_refl eq_refl eq_refl z H). Qed.
Lemma bits_of32 : forall z, 0 <= z < 2 ^ 32 -> bits_of_b32 (b32_of_bits z) = z.
Proof. intros z H. exact (bits_of_binary_float_of_bits 23 8 eq_refl eq_refl eq_refl z H). Qed.

Lemma real_unpack_app : forall hl t o bs rest (n : nat), o <> Undef -> Forall is_byte bs ->
  n = match t with Single => 4 | _ => 8 end%nat -> length bs = n -> t <> RUndef ->
  real_unpack hl (bs ++ rest) t o =
  Ok (Some (match t with Single => to_double (b32_of_bits (be_val (ordered_bytes hl o bs))) | _ => b64_of_bits (be_val (ordered_bytes hl o bs)) end, rest)).
Proof.
  intros hl t o bs rest n Ho F -> L Ht. destruct t; [ | |congruence]; unfold real_unpack.
  - destruct (Nat.ltb_spec (length (bs ++ rest)) 4) as [H|H]; [rewrite app_length, L in H; lia|].
    rewrite (unpack_ok hl u32 bs rest o Ho L F). reflexivity.
  - destruct (Nat.ltb_spec (length (bs ++ rest)) 8) as [H|H]; [rewrite app_length, L in H; lia|].
    rewrite (unpack_ok hl u64 bs rest o Ho L F). reflexivity.
Qed.

(** doubles *)
Lemma double_roundtrip : forall hl d o rest, o <> Undef ->
  exists bs, real_pack hl d Double o = Ok bs /\ length bs = 8%nat /\ real_unpack hl (bs ++ rest) Double o = Ok (Some (d, rest)).
Proof.
  intros hl d o rest Ho. destruct (pack_unpack hl u64 (bits_of_b64 d) o rest (bits64_range d)) as (bs & P & L & U); [discriminate|exact Ho|].
  exists bs. split; [exact P|]. split; [exact L|]. unfold real_unpack.
  destruct (Nat.ltb_spec (length (bs ++ rest)) 8) as [H|H]; [rewrite app_length, L in H; change (nbytes (it_width u64)) with 8%nat in H; lia|].
  rewrite U. cbn. rewrite of_bits64. reflexivity.
Qed.

Lemma double_bytes : forall hl bs rest o, o <> Undef -> Forall is_byte bs -> length bs = 8%nat ->
  exists d, real_unpack hl (bs ++ rest) Double o = Ok (Some (d, rest)) /\ real_pack hl d Double o = Ok bs.
Proof.
  intros hl bs rest o Ho F L. assert (U := unpack_ok hl u64 bs rest o Ho L F).
  destruct (unpack_pack hl u64 bs rest o _ rest Ho F L U) as (R & _ & P).
  eexists. split.
  - unfold real_unpack. destruct (Nat.ltb_spec (length (bs ++ rest)) 8) as [H|H]; [rewrite app_length, L in H; lia|].
    rewrite U. reflexivity.
  - unfold real_pack. rewrite bits_of64 by exact R. apply P. discriminate.
Qed.

(** rounding to single *)
Lemma to_single_finite : forall d, finite d ->
  if Rlt_bool (Rabs (nearest32 (dval d))) (bpow radix2 128)
  then is_finite 24 128 (to_single d) = true /\ fval (to_single d) = nearest32 (dval d) /\ Bsign 24 128 (to_single d) = Bsign 53 1024 d
  else to_single d = B754_infinity 24 128 (Bsign 53 1024 d).
Proof.
  intros d F. destruct d as [s|s|s pl H|s m e H]; unfold finite in F; cbn in F; try discriminate.
  - change (dval (B754_zero 53 1024 s)) with 0%R. unfold nearest32. rewrite round_0 by apply valid_rnd_N. rewrite Rabs_R0, Rlt_bool_true by apply bpow_gt_0.
    repeat split. 
  - unfold to_single. generalize (binary_normalize_correct 24 128 eq_refl eq_refl mode_NE (cond_Zopp s (Z.pos m)) e s).
    change (round_mode mode_NE) with ZnearestE. change (SpecFloat.fexp 24 128) with (FLT_exp (-149) 24).
    change (F2R (Float radix2 (cond_Zopp s (Z.pos m)) e)) with (dval (B754_finite 53 1024 s m e H)).
    fold (nearest32 (dval (B754_finite 53 1024 s m e H))). set (v := dval (B754_finite 53 1024 s m e H)).
    assert (N : v <> 0%R).
    { unfold v, dval; cbn. intros E. apply eq_0_F2R in E. destruct s; discriminate. }
    assert (Sg := nonzero_sign (B754_finite 53 1024 s m e H) eq_refl N). fold v in Sg. cbn [Bsign] in Sg |- *.
    destruct (Rlt_bool (Rabs _) _).
    + intros (A & B & C). split; [exact B|]. split; [exact A|]. rewrite C, Sg. unfold Rlt_bool.
      destruct (Rcompare_spec v 0); [reflexivity|contradiction|reflexivity].
    + intros A. apply B2FF_inj. rewrite A, <- Sg. reflexivity.
Qed.

(** single to double is exact *)
Lemma to_double_finite : forall f, is_finite 24 128 f = true ->
  finite (to_double f) /\ dval (to_double f) = fval f /\ Bsign 53 1024 (to_double f) = Bsign 24 128 f.
Proof.
  intros f F. destruct f as [s|s|s pl H|s m e H]; cbn in F; try discriminate.
  - repeat split.
  - unfold to_double. generalize (binary_normalize_correct 53 1024 eq_refl eq_refl mode_NE (cond_Zopp s (Z.pos m)) e s).
    change (round_mode mode_NE) with ZnearestE. rewrite fx_eq.
    change (F2R (Float radix2 (cond_Zopp s (Z.pos m)) e)) with (fval (B754_finite 24 128 s m e H)).
    set (v := fval (B754_finite 24 128 s m e H)).
    assert (G : round radix2 (FLT_exp (-1074) 53) ZnearestE v = v).
    { apply round_generic; [apply valid_rnd_N|]. apply (generic_inclusion_mag radix2 (FLT_exp (-149) 24)).
      - intros _. unfold FLT_exp. lia.
      - apply (generic_format_B2R 24 128). }
    rewrite G. rewrite Rlt_bool_true.
    + intros (A & B & C). split; [exact B|]. split; [exact A|]. rewrite C.
      assert (N : v <> 0%R).
      { unfold v, fval; cbn. intros E. apply eq_0_F2R in E. destruct s; discriminate. }
      cbn [Bsign]. unfold v, fval in *. cbn in *. destruct s; cbn in *.
      * rewrite Rcompare_Lt; [reflexivity|]. apply F2R_lt_0. reflexivity.
      * rewrite Rcompare_Gt; [reflexivity|]. apply F2R_gt_0. reflexivity.
    + eapply Rlt_trans; [apply (abs_B2R_lt_emax 24 128)|]. apply bpow_lt. reflexivity.
Qed.

Lemma single_double_single : forall f, is_finite 24 128 f = true -> to_single (to_double f) = f.
Proof.
  intros f F. destruct (to_double_finite f F) as (A & B & C). generalize (to_single_finite (to_double f) A). rewrite B, C.
  assert (G : nearest32 (fval f) = fval f).
  { apply round_generic; [apply valid_rnd_N|]. apply (generic_format_B2R 24 128). }
  rewrite G, Rlt_bool_true by apply (abs_B2R_lt_emax 24 128). intros (D & E & H).
  apply B2R_Bsign_inj; assumption.
Qed.

(** NaN *)
Lemma nan_pl_lt : forall p pl, 1 < p -> nan_pl p pl = true <-> Zpos pl < 2 ^ (p - 1).
Proof.
  intros p pl Hp. unfold nan_pl. rewrite Z.ltb_lt, Digits.Zpos_digits2_pos. split; intros H.
  - apply (Zpower_gt_Zdigits radix2 (p - 1) (Zpos pl)). lia.
  - assert (Zdigits radix2 (Zpos pl) <= p - 1); [|lia]. apply (Zdigits_le_Zpower radix2 (p - 1) (Zpos pl)). exact H.
Qed.

Lemma nan64 : forall (s : bool) pl, Zpos pl < 2 ^ 52 -> exists H : nan_pl 53 pl = true,
  b64_of_bits ((if s then 2 ^ 63 else 0) + 2047 * 2 ^ 52 + Zpos pl) = B754_nan 53 1024 s pl H.
Proof.
  intros s pl Hp. assert (H : nan_pl 53 pl = true) by (apply nan_pl_lt; [lia|exact Hp]). exists H.
  rewrite <- (of_bits64 (B754_nan 53 1024 s pl H)). f_equal. unfold bits_of_b64, bits_of_binary_float, join_bits.
  rewrite Z.shiftl_mul_pow2 by lia. destruct s; lia.
Qed.
Lemma nan32 : forall (s : bool) pl, Zpos pl < 2 ^ 23 -> exists H : nan_pl 24 pl = true,
  b32_of_bits ((if s then 2 ^ 31 else 0) + 255 * 2 ^ 23 + Zpos pl) = B754_nan 24 128 s pl H.
Proof.
  intros s pl Hp. assert (H : nan_pl 24 pl = true) by (apply nan_pl_lt; [lia|exact Hp]). exists H.
  rewrite <- (of_bits32 (B754_nan 24 128 s pl H)). f_equal. unfold bits_of_b32, bits_of_binary_float, join_bits.
  rewrite Z.shiftl_mul_pow2 by lia. destruct s; lia.
Qed.

Lemma lor_disjoint : forall a b n, 0 <= n -> 0 <= b < 2 ^ n -> Z.lor (a * 2 ^ n) b = a * 2 ^ n + b.
Proof.
  intros a b n Hn Hb. rewrite <- Z.lxor_lor, Z.add_nocarry_lxor; auto.
  1,2: apply Z.bits_inj'; intros i Hi; rewrite Z.land_spec, Z.bits_0, <- Z.shiftl_mul_pow2 by lia;
    rewrite Z.shiftl_spec by lia; destruct (Z.ltb_spec i n);
    [rewrite Z.testbit_neg_r by lia; reflexivity
    |rewrite <- (Z.mod_small b (2 ^ n)) by lia; rewrite Z.mod_pow2_bits_high by lia; apply andb_false_r].
Qed.

Lemma lor_lt : forall a b n, 0 <= n -> 0 <= a < 2 ^ n -> 0 <= b < 2 ^ n -> 0 <= Z.lor a b < 2 ^ n.
Proof.
  intros a b n Hn Ha Hb. split; [apply Z.lor_nonneg; lia|].
  destruct (Z.eq_dec (Z.lor a b) 0) as [E|E]; [rewrite E; lia|].
  assert (0 <= Z.lor a b) by (apply Z.lor_nonneg; lia).
  apply Z.log2_lt_pow2; [lia|]. rewrite Z.log2_lor by lia.
  destruct (Z.eq_dec a 0) as [-> |], (Z.eq_dec b 0) as [-> |]; try (apply Z.max_lub_lt); try (apply Z.log2_lt_pow2; lia); cbn; try lia.
  all: assert (0 < n) by (destruct (Z.eq_dec n 0); [subst; cbn in *; lia|lia]); try lia; try (apply Z.max_lub_lt; [lia|apply Z.log2_lt_pow2; lia]).
Qed.

(** a NaN stays a NaN of the same sign, quiet *)
Lemma to_single_nan : forall s pl H, exists pl' (H' : nan_pl 24 pl' = true), to_single (B754_nan 53 1024 s pl H) = B754_nan 24 128 s pl' H' /\
  Zpos pl' = Z.lor (2 ^ 22) (Zpos pl / 2 ^ 29).
Proof.
  intros s pl H. assert (Hp : Zpos pl < 2 ^ 52) by (apply (nan_pl_lt 53); [lia|exact H]).
  unfold to_single. rewrite Z.shiftr_div_pow2 by lia. set (q := Zpos pl / 2 ^ 29).
  assert (Hq : 0 <= q < 2 ^ 23) by (unfold q; split; [apply Z.div_pos; lia|apply Z.div_lt_upper_bound; lia]).
  assert (Hl := lor_lt (2 ^ 22) q 23 ltac:(lia) ltac:(lia) Hq).
  assert (Hn : Z.lor (2 ^ 22) q <> 0).
  { intros E. apply Z.lor_eq_0_iff in E. lia. }
  destruct (Z.lor (2 ^ 22) q) as [|p|p] eqn:E; try lia.
  destruct (nan32 s p) as [H' N]; [lia|]. exists p, H'. split; [|reflexivity]. rewrite <- N. f_equal.
  replace 2143289344 with (Z.lor (255 * 2 ^ 23) (2 ^ 22)) by reflexivity. rewrite <- Z.lor_assoc, E.
  rewrite lor_disjoint by lia. lia.
Qed.

Lemma to_double_nan : forall s pl H, exists pl' (H' : nan_pl 53 pl' = true), to_double (B754_nan 24 128 s pl H) = B754_nan 53 1024 s pl' H' /\
  Zpos pl' = Z.lor (2 ^ 51) (Zpos pl * 2 ^ 29).
Proof.
  intros s pl H. assert (Hp : Zpos pl < 2 ^ 23) by (apply (nan_pl_lt 24); [lia|exact H]).
  unfold to_double. rewrite Z.shiftl_mul_pow2 by lia. set (q := Zpos pl * 2 ^ 29).
  assert (Hq : 0 <= q < 2 ^ 52) by (unfold q; lia).
  assert (Hl := lor_lt (2 ^ 51) q 52 ltac:(lia) ltac:(lia) Hq).
  assert (Hn : Z.lor (2 ^ 51) q <> 0).
  { intros E. apply Z.lor_eq_0_iff in E. lia. }
  destruct (Z.lor (2 ^ 51) q) as [|p|p] eqn:E; try lia.
  destruct (nan64 s p) as [H' N]; [lia|]. exists p, H'. split; [|reflexivity]. rewrite <- N. f_equal.
  replace 9221120237041090560 with (Z.lor (2047 * 2 ^ 52) (2 ^ 51)) by reflexivity. rewrite <- Z.lor_assoc, E.
  rewrite lor_disjoint by lia. lia.
Qed.
