From Flocq Require Import Core BinarySingleNaN Binary Bits Relative.
From Coq Require Import Reals Lra.
From Verif Require Import Base IntModel TimeModel RealModel RealSpec.
Open Scope R_scope.

Notation fx := (SpecFloat.fexp 53 1024).
Lemma fx_eq : fx = FLT_exp (-1074) 53.
Proof. reflexivity. Qed.

Global Instance p53 : Prec_gt_0 53.
Proof. reflexivity. Qed.
Global Instance p24 : Prec_gt_0 24.
Proof. reflexivity. Qed.

Lemma nearest64_le : forall a b, a <= b -> nearest64 a <= nearest64 b.
Proof. intros. unfold nearest64. apply round_le; [apply FLT_exp_valid; exact p53|apply valid_rnd_N|assumption]. Qed.

Lemma nearest64_id : forall a, generic_format radix2 (FLT_exp (-1074) 53) a -> nearest64 a = a.
Proof. intros. unfold nearest64. apply round_generic; [apply valid_rnd_N|assumption]. Qed.

Lemma format_dval : forall d, generic_format radix2 (FLT_exp (-1074) 53) (dval d).
Proof. intros d. apply (generic_format_B2R 53 1024). Qed.

Lemma nearest64_dval : forall d, nearest64 (dval d) = dval d.
Proof. intros. apply nearest64_id, format_dval. Qed.

(** integers with 53 bits times a power of two *)
Lemma format_int : forall m e, (Z.abs m <= 2 ^ 53)%Z -> (-1074 <= e)%Z ->
  generic_format radix2 (FLT_exp (-1074) 53) (IZR m * bpow radix2 e).
Proof.
  intros m e Hm He. destruct (Z.eq_dec (Z.abs m) (2 ^ 53)) as [E|N].
  - assert (exists s, (s = 1 \/ s = -1)%Z /\ m = (s * 2 ^ 53)%Z) as (s & Hs & ->).
    { destruct (Z.abs_spec m) as [[? ?]|[? ?]]; [exists 1%Z|exists (-1)%Z]; split; lia. }
    rewrite mult_IZR. change (IZR (2 ^ 53)) with (bpow radix2 53). rewrite Rmult_assoc, <- bpow_plus.
    apply generic_format_FLT. exists (Float radix2 s (53 + e)); cbn [Fnum Fexp].
    + unfold F2R; cbn. reflexivity.
    + destruct Hs as [-> | ->]; cbn; lia.
    + lia.
  - apply generic_format_FLT. exists (Float radix2 m e); cbn [Fnum Fexp]; [reflexivity|change (Zpower radix2 53) with (2 ^ 53)%Z; lia|lia].
Qed.

Lemma format_Z : forall m, (Z.abs m <= 2 ^ 53)%Z -> generic_format radix2 (FLT_exp (-1074) 53) (IZR m).
Proof. intros m H. rewrite <- (Rmult_1_r (IZR m)). change 1 with (bpow radix2 0). apply format_int; [assumption|lia]. Qed.

Lemma of_int_spec : forall z, (Z.abs z <= 2 ^ 64)%Z ->
  finite (of_int z) /\ dval (of_int z) = nearest64 (IZR z) /\ Bsign 53 1024 (of_int z) = (z <? 0)%Z.
Proof.
  intros z Hz. unfold of_int, finite, dval, nearest64.
  generalize (binary_normalize_correct 53 1024 eq_refl eq_refl mode_NE z 0 false).
  change (round_mode mode_NE) with ZnearestE. rewrite fx_eq.
  replace (F2R (Float radix2 z 0)) with (IZR z) by (unfold F2R; cbn; ring).
  rewrite Rlt_bool_true.
  - intros (A & B & C). split; [exact B|]. split; [exact A|]. rewrite C.
    destruct (Rcompare_spec (IZR z) 0) as [L|L|L]; symmetry.
    + apply Z.ltb_lt. apply lt_IZR. exact L.
    + apply Z.ltb_ge. apply eq_IZR in L. lia.
    + apply Z.ltb_ge. apply lt_IZR in L. lia.
  - apply Rle_lt_trans with (bpow radix2 64); [|apply bpow_lt; reflexivity].
    apply abs_round_le_generic; [apply FLT_exp_valid; exact p53|apply valid_rnd_N| |].
    + apply generic_format_bpow. cbn. lia.
    + rewrite <- abs_IZR. change (bpow radix2 64) with (IZR (2 ^ 64)). apply IZR_le. exact Hz.
Qed.

Lemma of_int_exact : forall z, (Z.abs z <= 2 ^ 53)%Z -> dval (of_int z) = IZR z.
Proof.
  intros z Hz. destruct (of_int_spec z) as (_ & -> & _); [|apply nearest64_id, format_Z, Hz].
  apply Z.le_trans with (1 := Hz). apply Z.pow_le_mono_r; lia.
Qed.

Lemma giga_val : dval giga = 1000000000.
Proof. apply of_int_exact. vm_compute. discriminate. Qed.
Lemma giga_finite : finite giga.
Proof. apply of_int_spec. vm_compute. discriminate. Qed.
Lemma giga_sign : Bsign 53 1024 giga = false.
Proof. unfold giga. destruct (of_int_spec 1000000000) as (_ & _ & ->); [vm_compute; discriminate|reflexivity]. Qed.

(** the limits as doubles *)
Lemma format_p : forall k, (0 <= k <= 64)%Z -> generic_format radix2 (FLT_exp (-1074) 53) (bpow radix2 k).
Proof. intros. apply generic_format_bpow. unfold FLT_exp. lia. Qed.

Lemma pow_IZR : forall k, (0 <= k)%Z -> IZR (2 ^ k) = bpow radix2 k.
Proof. intros k H. change 2%Z with (radix_val radix2). apply IZR_Zpower. exact H. Qed.

Lemma lim_of_B2FF : forall d s m e H, d = B754_finite 53 1024 s m e H -> dval d = IZR (cond_Zopp s (Zpos m)) * bpow radix2 e.
Proof. intros d s m e H ->. reflexivity. Qed.

Lemma hi63 : dval (of_int (2 ^ 63 - 1)) = bpow radix2 63.
Proof.
  assert (E : B2FF 53 1024 (of_int (2 ^ 63 - 1)) = B2FF 53 1024 (of_int (2 ^ 63))) by (vm_compute; reflexivity).
  apply B2FF_inj in E. rewrite E. destruct (of_int_spec (2 ^ 63)) as (_ & -> & _); [vm_compute; discriminate|].
  rewrite pow_IZR by lia. apply nearest64_id, format_p. lia.
Qed.
Lemma hi64 : dval (of_int (2 ^ 64 - 1)) = bpow radix2 64.
Proof.
  assert (E : B2FF 53 1024 (of_int (2 ^ 64 - 1)) = B2FF 53 1024 (of_int (2 ^ 64))) by (vm_compute; reflexivity).
  apply B2FF_inj in E. rewrite E. destruct (of_int_spec (2 ^ 64)) as (_ & -> & _); [vm_compute; discriminate|].
  rewrite pow_IZR by lia. apply nearest64_id, format_p. lia.
Qed.
Lemma lo63 : dval (of_int (- 2 ^ 63)) = - bpow radix2 63.
Proof.
  destruct (of_int_spec (- 2 ^ 63)) as (_ & -> & _); [vm_compute; discriminate|].
  rewrite opp_IZR, pow_IZR by lia. apply nearest64_id, generic_format_opp, format_p. lia.
Qed.
Lemma lo0 : dval (of_int 0) = 0.
Proof. apply of_int_exact. vm_compute. discriminate. Qed.

Lemma dlt_spec : forall a b, finite a -> finite b -> dlt a b = Rlt_bool (dval a) (dval b).
Proof.
  intros a b Ha Hb. unfold dlt, b64_compare. rewrite (Bcompare_correct 53 1024 a b Ha Hb). fold (dval a) (dval b).
  unfold Rlt_bool. reflexivity.
Qed.

(** the product *)
Lemma mult_spec : forall s d, finite s -> finite d -> let x := b64_mult mode_NE s d in
  let v := nearest64 (dval s * dval d) in
  if Rlt_bool (Rabs v) (bpow radix2 1024) then finite x /\ dval x = v /\ Bsign 53 1024 x = xorb (Bsign 53 1024 s) (Bsign 53 1024 d)
  else x = B754_infinity 53 1024 (xorb (Bsign 53 1024 s) (Bsign 53 1024 d)).
Proof.
  intros s d Hs Hd. cbv zeta. unfold b64_mult.
  match goal with |- context [Bmult 53 1024 ?a ?b ?c mode_NE s d] => generalize (Bmult_correct 53 1024 a b c mode_NE s d); set (x := Bmult 53 1024 a b c mode_NE s d) end.
  change (round_mode mode_NE) with ZnearestE. rewrite fx_eq. change (round radix2 _ ZnearestE (B2R 53 1024 s * B2R 53 1024 d)) with (nearest64 (dval s * dval d)).
  destruct (Rlt_bool _ _).
  - intros (A & B & C). unfold finite in *. rewrite Hs, Hd in B. cbn in B. split; [exact B|]. split; [exact A|]. apply C.
    destruct x; cbn in B |- *; congruence.
  - intros A. apply B2FF_inj. rewrite A. reflexivity.
Qed.

Lemma nonzero_sign : forall d, finite d -> dval d <> 0 -> Bsign 53 1024 d = Rlt_bool (dval d) 0.
Proof.
  intros [s|s|s pl H|s m e H] Hd N; unfold finite in Hd; cbn in Hd; try discriminate.
  - exfalso. apply N. reflexivity.
  - unfold dval. cbn. destruct s; cbn; symmetry.
    + apply Rlt_bool_true. apply F2R_lt_0. reflexivity.
    + apply Rlt_bool_false. apply F2R_ge_0. cbn. lia.
Qed.

Lemma bpow_lt_1024 : forall x k, (k <= 1024)%Z -> Rabs x < bpow radix2 k -> Rabs x < bpow radix2 1024.
Proof. intros x k Hk H. apply Rlt_le_trans with (1 := H). apply bpow_le. exact Hk. Qed.

Lemma Ztrunc_bounds : forall x a b, IZR a <= x < IZR (b + 1) -> (a <= 0 <= b)%Z -> (a <= Ztrunc x <= b)%Z.
Proof.
  intros x a b [H1 H2] [Ha Hb]. destruct (Rle_or_lt 0 x) as [P|P].
  - rewrite Ztrunc_floor by exact P. split.
    + apply Z.le_trans with 0%Z; [exact Ha|]. rewrite <- (Zfloor_IZR 0). apply Zfloor_le. exact P.
    + apply Zlt_succ_le. apply lt_IZR. apply Rle_lt_trans with x; [apply Zfloor_lb|]. unfold Z.succ. exact H2.
  - rewrite Ztrunc_ceil by lra. split.
    + rewrite <- (Zceil_IZR a). apply Zceil_le. exact H1.
    + apply Z.le_trans with 0%Z; [|exact Hb]. rewrite <- (Zceil_IZR 0). apply Zceil_le. lra.
Qed.
