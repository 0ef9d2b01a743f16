From Flocq Require Import Core BinarySingleNaN Binary Bits Relative.
From Coq Require Import Reals Lra.
From Verif Require Import Base IntModel TimeModel RealModel RealSpec RealProofs RealProofs2.
Open Scope R_scope.

Lemma nearest64_between : forall r a b, generic_format radix2 (FLT_exp (-1074) 53) a ->
  generic_format radix2 (FLT_exp (-1074) 53) b -> a <= r <= b -> a <= nearest64 r <= b.
Proof.
  intros r a b Fa Fb [H1 H2]. rewrite <- (nearest64_id a Fa), <- (nearest64_id b Fb). split; apply nearest64_le; assumption.
Qed.

Lemma format_Z9 : forall n, (Z.abs n <= 2 ^ 53)%Z -> generic_format radix2 (FLT_exp (-1074) 53) (IZR (n * 512)).
Proof. intros n H. rewrite mult_IZR. change 512 with (bpow radix2 9). apply format_int; [exact H|lia]. Qed.

Lemma format_Zk : forall n k, (0 <= k)%Z -> (Z.abs n <= 2 ^ 53)%Z -> generic_format radix2 (FLT_exp (-1074) 53) (IZR (n * 2 ^ k)).
Proof. intros n k K H. rewrite mult_IZR, pow_IZR by exact K. apply format_int; [exact H|lia]. Qed.

Lemma whole_seconds : forall n, (Z.abs n <= 4611686018)%Z ->
  nearest64 (dval (of_int n) * 1000000000) = IZR (n * 1000000000).
Proof.
  intros n H. rewrite of_int_exact by lia. rewrite <- mult_IZR.
  replace (n * 1000000000)%Z with (n * 1953125 * 512)%Z by ring. apply nearest64_id, format_Z9. lia.
Qed.

Lemma whole_interval : forall conv n, converts (- 2 ^ 63) (2 ^ 63 - 1) conv -> (Z.abs n <= 4611686018)%Z ->
  interval_of_secs conv (of_int n) = Ok (n * 1000000000)%Z.
Proof.
  intros conv n C H. destruct (of_int_spec n) as (F & _ & _); [lia|].
  destruct (interval_ok conv (of_int n) C F) as [A _]. rewrite whole_seconds in A by exact H.
  rewrite Ztrunc_IZR in A. apply A. rewrite <- opp_IZR. split; [apply IZR_le; lia|apply IZR_lt; lia].
Qed.

Lemma whole_time : forall conv n, converts 0 (2 ^ 64 - 1) conv -> (0 <= n <= 4611686018)%Z ->
  time_of_secs conv (of_int n) = Ok (n * 1000000000)%Z.
Proof.
  intros conv n C H. destruct (of_int_spec n) as (F & _ & S); [lia|].
  destruct (time_ok conv (of_int n) C F) as [A _]. rewrite whole_seconds in A by lia.
  rewrite Ztrunc_IZR in A. apply A; [rewrite S; lia|]. apply IZR_lt; lia.
Qed.

(** range in which a result is guaranteed *)
Lemma interval_range : forall s, - 9223372036 <= dval s <= 9223372036 ->
  - IZR (2 ^ 63) <= nearest64 (dval s * 1000000000) < IZR (2 ^ 63).
Proof.
  intros s H.
  assert (X : - IZR ((2 ^ 53 - 1) * 2 ^ 10) <= nearest64 (dval s * 1000000000) <= IZR ((2 ^ 53 - 1) * 2 ^ 10)).
  { apply nearest64_between.
    - apply generic_format_opp. apply format_Zk; lia.
    - apply format_Zk; lia.
    - change (IZR ((2 ^ 53 - 1) * 2 ^ 10)) with 9223372036854774784. lra. }
  change (IZR ((2 ^ 53 - 1) * 2 ^ 10)) with 9223372036854774784 in X. change (IZR (2 ^ 63)) with 9223372036854775808. lra.
Qed.

Lemma time_range : forall s, 0 <= dval s <= 18446744073 -> nearest64 (dval s * 1000000000) < IZR (2 ^ 64).
Proof.
  intros s H.
  assert (X : 0 <= nearest64 (dval s * 1000000000) <= IZR ((2 ^ 53 - 1) * 2 ^ 11)).
  { apply nearest64_between.
    - apply generic_format_0.
    - apply format_Zk; lia.
    - change (IZR ((2 ^ 53 - 1) * 2 ^ 11)) with 18446744073709549568. lra. }
  change (IZR ((2 ^ 53 - 1) * 2 ^ 11)) with 18446744073709549568 in X. change (IZR (2 ^ 64)) with 18446744073709551616. lra.
Qed.

(** accuracy *)
Lemma trunc_nearest_err : forall r, Rabs (IZR (Ztrunc (nearest64 r)) - r) < 1 + Rabs r / 4503599627370496.
Proof.
  intros r. destruct (Rle_or_lt (Rabs r) (1 / 2)) as [L|L].
  - assert (Z0 : Ztrunc (nearest64 r) = 0%Z).
    { assert (X : -(1 / 2) <= nearest64 r <= 1 / 2).
      { apply Rabs_le_inv in L. apply nearest64_between; [apply generic_format_opp| |lra];
        replace (1 / 2) with (bpow radix2 (-1)) by (cbn; lra); apply generic_format_bpow; cbn; lia. }
      assert (B := Ztrunc_bounds (nearest64 r + 0) 0 0). destruct (Rle_or_lt 0 (nearest64 r)).
      - rewrite Ztrunc_floor by assumption. apply Zfloor_imp. cbn. lra.
      - rewrite Ztrunc_ceil by lra. apply Zceil_imp. cbn. lra. }
    rewrite Z0. apply Rle_lt_trans with (Rabs r); [rewrite <- (Rabs_Ropp r); apply Req_le; f_equal; ring|]. lra.
  - generalize (Ztrunc_err (nearest64 r)) (nearest64_err r). intros A B.
    replace (IZR (Ztrunc (nearest64 r)) - r) with ((IZR (Ztrunc (nearest64 r)) - nearest64 r) + (nearest64 r - r)) by ring.
    apply Rle_lt_trans with (1 := Rabs_triang _ _).
    assert (P : bpow radix2 (-1075) <= bpow radix2 (-54)) by (apply bpow_le; lia).
    replace (bpow radix2 (-54)) with (/ 18014398509481984) in P by (cbn; reflexivity).
    replace (bpow radix2 (-53)) with (/ 9007199254740992) in B by (cbn; reflexivity). lra.
Qed.

Lemma interval_accuracy : forall conv s, converts (- 2 ^ 63) (2 ^ 63 - 1) conv -> finite s ->
  - 9223372036 <= dval s <= 9223372036 ->
  exists r, interval_of_secs conv s = Ok r /\
    Rabs (IZR r - dval s * 1000000000) < 1 + Rabs (dval s * 1000000000) / 4503599627370496.
Proof.
  intros conv s C F H. destruct (interval_ok conv s C F) as [A _]. eexists. split; [apply A, interval_range, H|]. apply trunc_nearest_err.
Qed.

Lemma time_accuracy : forall conv s, converts 0 (2 ^ 64 - 1) conv -> finite s -> Bsign 53 1024 s = false ->
  dval s <= 18446744073 ->
  exists r, time_of_secs conv s = Ok r /\
    Rabs (IZR r - dval s * 1000000000) < 1 + Rabs (dval s * 1000000000) / 4503599627370496.
Proof.
  intros conv s C F S H. assert (0 <= dval s).
  { destruct (Req_dec (dval s) 0) as [E|E]; [lra|].
    rewrite nonzero_sign in S by assumption. generalize (Rlt_bool_spec (dval s) 0). rewrite S. intros X. inversion X. lra. }
  destruct (time_ok conv s C F) as [A _]. eexists. split; [apply A; [exact S|apply time_range; lra]|]. apply trunc_nearest_err.
Qed.

Lemma interval_monotone : forall conv s1 s2, converts (- 2 ^ 63) (2 ^ 63 - 1) conv -> finite s1 -> finite s2 ->
  - 9223372036 <= dval s1 -> dval s1 <= dval s2 -> dval s2 <= 9223372036 ->
  exists r1 r2, interval_of_secs conv s1 = Ok r1 /\ interval_of_secs conv s2 = Ok r2 /\ (r1 <= r2)%Z.
Proof.
  intros conv s1 s2 C F1 F2 H1 H H2. destruct (interval_ok conv s1 C F1) as [A1 _]. destruct (interval_ok conv s2 C F2) as [A2 _].
  do 2 eexists. split; [apply A1, interval_range; lra|]. split; [apply A2, interval_range; lra|].
  apply Ztrunc_le, nearest64_le. lra.
Qed.

Lemma time_monotone : forall conv s1 s2, converts 0 (2 ^ 64 - 1) conv -> finite s1 -> finite s2 ->
  Bsign 53 1024 s1 = false -> dval s1 <= dval s2 -> Bsign 53 1024 s2 = false -> dval s2 <= 18446744073 ->
  exists r1 r2, time_of_secs conv s1 = Ok r1 /\ time_of_secs conv s2 = Ok r2 /\ (r1 <= r2)%Z.
Proof.
  intros conv s1 s2 C F1 F2 S1 H S2 H2. destruct (time_ok conv s1 C F1) as [A1 _]. destruct (time_ok conv s2 C F2) as [A2 _].
  assert (0 <= dval s1).
  { destruct (Req_dec (dval s1) 0) as [E|E]; [lra|].
    rewrite nonzero_sign in S1 by assumption. generalize (Rlt_bool_spec (dval s1) 0). rewrite S1. intros X. inversion X. lra. }
  do 2 eexists. split; [apply A1; [exact S1|apply time_range; lra]|]. split; [apply A2; [exact S2|apply time_range; lra]|].
  apply Ztrunc_le, nearest64_le. lra.
Qed.

(** multiplication with a double *)
Lemma mul_double_ok : forall conv i d, converts (- 2 ^ 63) (2 ^ 63 - 1) conv -> finite d -> (- 2 ^ 63 <= i < 2 ^ 63)%Z ->
  let v := nearest64 (nearest64 (IZR i) * dval d) in
  - IZR (2 ^ 63) <= v < IZR (2 ^ 63) -> ival_mul_double conv i d = Ok (Ztrunc v).
Proof.
  intros conv i d C F Hi v Hv. unfold ival_mul_double. destruct (of_int_spec i) as (Fi & Vi & _); [lia|].
  generalize (mult_spec (of_int i) d Fi F). cbv zeta. rewrite Vi. fold v. rewrite Rlt_bool_true.
  - intros (Fx & Vx & _). rewrite <- Vx. apply C; [exact Fx| |intros HH; exfalso; lia].
    rewrite Vx. apply Ztrunc_bounds; [|lia]. replace (2 ^ 63 - 1 + 1)%Z with (2 ^ 63)%Z by reflexivity. rewrite opp_IZR. lra.
  - apply Rle_lt_trans with (bpow radix2 64); [|apply p64_lt]. rewrite <- pow_IZR by lia.
    change (IZR (2 ^ 63)) with 9223372036854775808 in Hv. change (IZR (2 ^ 64)) with 18446744073709551616. apply Rabs_le. lra.
Qed.
