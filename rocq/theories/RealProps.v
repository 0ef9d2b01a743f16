(** Properties C39 (times and intervals from and to doubles) and C69 (binary formats of reals). *)
From Flocq Require Import Core BinarySingleNaN Binary Bits.
From Coq Require Import Reals Lra.
From Verif Require Import Base IntModel IntSpec TimeModel TimeProps RealModel RealSpec RealProofs RealProofs2 RealProofs3 RealProofs4 RealProofs5 RealProofs6.
Open Scope R_scope.

(** Interval(s): the product is rounded to the nearest double, its fraction dropped; OutOfRange if that is out of range. *)
Theorem C39_interval_of_seconds : forall conv s, converts (- 2 ^ 63) (2 ^ 63 - 1) conv -> finite s ->
  let v := nearest64 (dval s * 1000000000) in
  (- IZR (2 ^ 63) <= v < IZR (2 ^ 63) -> interval_of_secs conv s = Ok (Ztrunc v)) /\
  (v < - IZR (2 ^ 63) \/ IZR (2 ^ 63) < v -> interval_of_secs conv s = Throw OutOfRange).
Proof. exact interval_ok. Qed.
Print Assumptions C39_interval_of_seconds.

Theorem C39_time_of_seconds : forall conv s, converts 0 (2 ^ 64 - 1) conv -> finite s ->
  let v := nearest64 (dval s * 1000000000) in
  (Bsign 53 1024 s = false -> v < IZR (2 ^ 64) -> time_of_secs conv s = Ok (Ztrunc v)) /\
  (dval s < 0 \/ IZR (2 ^ 64) < v -> time_of_secs conv s = Throw OutOfRange).
Proof. exact time_ok. Qed.
Print Assumptions C39_time_of_seconds.

Theorem C39_infinite_seconds : forall conv b,
  interval_of_secs conv (B754_infinity 53 1024 b) = Throw OutOfRange /\
  time_of_secs conv (B754_infinity 53 1024 b) = Throw OutOfRange.
Proof. exact inf_out_of_range. Qed.
Print Assumptions C39_infinite_seconds.

(** The documented OutOfRange is not raised for NaN, nor for the finite values whose product is the first number that does
    not fit (2^63 for intervals, 2^64 for times): there the value is passed on to SafeInt's conversion. *)
Theorem C39_out_of_range_check_refuted :
  (forall conv b pl H, interval_of_secs conv (B754_nan 53 1024 b pl H) = conv (B754_nan 53 1024 b pl H) /\
                       time_of_secs conv (B754_nan 53 1024 b pl H) = conv (B754_nan 53 1024 b pl H)) /\
  (exists s, finite s /\ nearest64 (dval s * 1000000000) = IZR (2 ^ 63) /\
     forall conv, interval_of_secs conv s = conv (of_int (2 ^ 63))) /\
  (exists s, finite s /\ nearest64 (dval s * 1000000000) = IZR (2 ^ 64) /\
     forall conv, time_of_secs conv s = conv (of_int (2 ^ 64))).
Proof.
  assert (M : forall n k, (n = 63 \/ n = 64)%Z ->
    b64_mult mode_NE (b64_of_bits k) giga = of_int (2 ^ n) -> finite (b64_of_bits k) -> 
    finite (b64_of_bits k) /\ nearest64 (dval (b64_of_bits k) * 1000000000) = IZR (2 ^ n)).
  { intros n k Hn E F. split; [exact F|]. assert (X := mult_spec (b64_of_bits k) giga F giga_finite). cbv zeta in X.
    rewrite giga_val, E in X. destruct (of_int_spec (2 ^ n)) as (G & V & _).
    { rewrite Z.abs_eq by (apply Z.pow_nonneg; lia). apply Z.pow_le_mono_r; lia. }
    destruct (Rlt_bool _ _).
    - destruct X as (_ & <- & _). rewrite V. apply nearest64_id. rewrite pow_IZR by lia. apply format_p. lia.
    - rewrite X in G. discriminate G. }
  split; [|split].
  - intros conv b pl H. split; reflexivity.
  - exists (b64_of_bits 4756133310154331797). destruct (M 63%Z 4756133310154331797%Z) as [A B]; [auto|apply B2FF_inj; vm_compute; reflexivity|vm_compute; reflexivity|].
    split; [exact A|]. split; [exact B|]. intros conv. unfold interval_of_secs, nsecs_of.
    replace (b64_mult mode_NE (b64_of_bits 4756133310154331797) giga) with (of_int (2 ^ 63)) by (apply B2FF_inj; vm_compute; reflexivity).
    match goal with |- context [if ?c then _ else _] => replace c with false by (vm_compute; reflexivity) end. reflexivity.
  - exists (b64_of_bits 4760636909781702293). destruct (M 64%Z 4760636909781702293%Z) as [A B]; [auto|apply B2FF_inj; vm_compute; reflexivity|vm_compute; reflexivity|].
    split; [exact A|]. split; [exact B|]. intros conv. unfold time_of_secs, nsecs_of.
    replace (b64_mult mode_NE (b64_of_bits 4760636909781702293) giga) with (of_int (2 ^ 64)) by (apply B2FF_inj; vm_compute; reflexivity).
    match goal with |- context [if ?c then _ else _] => replace c with false by (vm_compute; reflexivity) end. reflexivity.
Qed.
Print Assumptions C39_out_of_range_check_refuted.

(** Within the range there is a result, and it is off by less than a nanosecond plus 2^-52 of the value. *)
Theorem C39_seconds_accuracy : forall conv conv' s, converts (- 2 ^ 63) (2 ^ 63 - 1) conv -> converts 0 (2 ^ 64 - 1) conv' ->
  finite s ->
  (- 9223372036 <= dval s <= 9223372036 -> exists r, interval_of_secs conv s = Ok r /\
     Rabs (IZR r - dval s * 1000000000) < 1 + Rabs (dval s * 1000000000) / IZR (2 ^ 52)) /\
  (Bsign 53 1024 s = false -> dval s <= 18446744073 -> exists r, time_of_secs conv' s = Ok r /\
     Rabs (IZR r - dval s * 1000000000) < 1 + Rabs (dval s * 1000000000) / IZR (2 ^ 52)).
Proof.
  intros conv conv' s C C' F. change (IZR (2 ^ 52)) with 4503599627370496. split.
  - apply interval_accuracy; assumption.
  - apply time_accuracy; assumption.
Qed.
Print Assumptions C39_seconds_accuracy.

(** Whole seconds up to 2^53 / 5^9 (about 146 years) are exact. *)
Theorem C39_whole_seconds : forall conv conv' n, converts (- 2 ^ 63) (2 ^ 63 - 1) conv -> converts 0 (2 ^ 64 - 1) conv' ->
  ((- 4611686018 <= n <= 4611686018)%Z -> interval_of_secs conv (of_int n) = Ok (n * 1000000000)%Z) /\
  ((0 <= n <= 4611686018)%Z -> time_of_secs conv' (of_int n) = Ok (n * 1000000000)%Z).
Proof.
  intros conv conv' n C C'. split; intros H; [apply whole_interval|apply whole_time]; auto. lia.
Qed.
Print Assumptions C39_whole_seconds.

Theorem C39_seconds_monotone : forall conv conv' s1 s2, converts (- 2 ^ 63) (2 ^ 63 - 1) conv -> converts 0 (2 ^ 64 - 1) conv' ->
  finite s1 -> finite s2 -> dval s1 <= dval s2 ->
  (- 9223372036 <= dval s1 -> dval s2 <= 9223372036 ->
     exists r1 r2, interval_of_secs conv s1 = Ok r1 /\ interval_of_secs conv s2 = Ok r2 /\ (r1 <= r2)%Z) /\
  (Bsign 53 1024 s1 = false -> Bsign 53 1024 s2 = false -> dval s2 <= 18446744073 ->
     exists r1 r2, time_of_secs conv' s1 = Ok r1 /\ time_of_secs conv' s2 = Ok r2 /\ (r1 <= r2)%Z).
Proof.
  intros conv conv' s1 s2 C C' F1 F2 H. split; intros.
  - apply interval_monotone; assumption.
  - apply time_monotone; assumption.
Qed.
Print Assumptions C39_seconds_monotone.

(** seconds() and back. *)
Theorem C39_seconds_roundtrip : forall conv conv' n, converts (- 2 ^ 63) (2 ^ 63 - 1) conv -> converts 0 (2 ^ 64 - 1) conv' ->
  ((Z.abs n < 2 ^ 52)%Z -> exists r, interval_of_secs conv (seconds n) = Ok r /\ (r = n \/ r = n - Z.sgn n)%Z) /\
  ((Z.abs n <= 2 ^ 63 - 2 ^ 13)%Z -> exists r, interval_of_secs conv (seconds n) = Ok r /\
     Rabs (IZR r - IZR n) < 1 + Rabs (IZR n) / 1801439850948198) /\
  ((0 <= n <= 2 ^ 64 - 2 ^ 14)%Z -> exists r, time_of_secs conv' (seconds n) = Ok r /\
     Rabs (IZR r - IZR n) < 1 + Rabs (IZR n) / 1801439850948198).
Proof.
  intros conv conv' n C C'. split; [|split]; intros H.
  - apply small_roundtrip; assumption.
  - apply roundtrip_interval; assumption.
  - apply roundtrip_time; assumption.
Qed.
Print Assumptions C39_seconds_roundtrip.

(** The round trip is not the identity: an interval of 15 ns comes back as 14 ns. *)
Theorem C39_seconds_roundtrip_refuted : forall conv, converts (- 2 ^ 63) (2 ^ 63 - 1) conv ->
  interval_of_secs conv (seconds 15) = Ok 14%Z.
Proof.
  intros conv C. 
  assert (F : finite (seconds 15)) by (apply seconds_spec; lia).
  assert (E : b64_mult mode_NE (seconds 15) giga = b64_of_bits 4624633867356078079) by (apply B2FF_inj; vm_compute; reflexivity).
  unfold interval_of_secs, nsecs_of. rewrite E.
  match goal with |- context [if ?c then _ else _] => replace c with false by (vm_compute; reflexivity) end.
  assert (T : Ztrunc (dval (b64_of_bits 4624633867356078079)) = 14%Z).
  { assert (B : B2FF 53 1024 (b64_of_bits 4624633867356078079) = F754_finite false 8444249301319679 (-49)) by (vm_compute; reflexivity).
    unfold dval. rewrite <- FF2R_B2FF, B. cbn [FF2R]. unfold F2R. cbn. rewrite Ztrunc_floor; [apply Zfloor_imp; cbn|]; lra. }
  rewrite <- T. apply C; [vm_compute; reflexivity| |intros; lia]. rewrite T. lia.
Qed.
Print Assumptions C39_seconds_roundtrip_refuted.

(** Interval * double. *)
Theorem C39_interval_times_double : forall conv i d, converts (- 2 ^ 63) (2 ^ 63 - 1) conv -> finite d -> is_interval i ->
  let v := nearest64 (nearest64 (IZR i) * dval d) in
  - IZR (2 ^ 63) <= v < IZR (2 ^ 63) -> ival_mul_double conv i d = Ok (Ztrunc v).
Proof. intros conv i d C F H. apply mul_double_ok; [exact C|exact F|unfold is_interval in H; lia]. Qed.
Print Assumptions C39_interval_times_double.

(** current_time() is within half a microsecond of what the system reports (until the year 2106). *)
Theorem C39_current_time : forall conv sec usec, converts 0 (2 ^ 64 - 1) conv -> (0 <= sec < 2 ^ 32)%Z -> (0 <= usec < 1000000)%Z ->
  exists r, current_time conv sec usec = Ok r /\ Rabs (IZR r - IZR (sec * 1000000000 + usec * 1000)) < 500.
Proof. exact current_time_ok. Qed.
Print Assumptions C39_current_time.

(** mktime(): invalid fields are rejected, valid fields give libc's answer in nanoseconds. *)
Definition valid_fields (y m d H M S : Z) : Prop :=
  (1970 <= y /\ 1 <= m <= 12 /\ 1 <= d <= 31 /\ H <= 23 /\ M <= 59 /\ S <= 59)%Z.
Theorem C39_mktime : forall conv libc y m d H M S, converts 0 (2 ^ 64 - 1) conv ->
  (~ valid_fields y m d H M S -> mk_time conv libc y m d H M S = Throw InvalidValue) /\
  (valid_fields y m d H M S -> (y < 2 ^ 31)%Z -> 
     ((libc (y - 1900) (m - 1) d H M S < 0)%Z -> mk_time conv libc y m d H M S = Throw InvalidValue) /\
     ((0 <= libc (y - 1900) (m - 1) d H M S <= 4611686018)%Z ->
      mk_time conv libc y m d H M S = Ok (libc (y - 1900) (m - 1) d H M S * 1000000000)%Z)).
Proof.
  intros conv libc y m d H M S C. unfold mk_time, valid_fields.
  match goal with |- context [if ?c then Throw InvalidValue else _] => destruct c eqn:G end.
  - split; [reflexivity|]. intros V. exfalso. lia.
  - split; [intros V; exfalso; apply V; lia|]. intros V Y.
    assert (W : wrap (mkIty true W32) y = y).
    { unfold wrap. cbn [it_width it_signed bits_of andb]. change (2 ^ 32)%Z with 4294967296%Z. rewrite Z.mod_small by lia.
      change (4294967296 / 2)%Z with 2147483648%Z. destruct (Z.leb_spec 2147483648 y); lia. }
    rewrite W. destruct (Z.ltb_spec (y - 1900) (- 2 ^ 31)); [lia|]. split; intros L.
    + apply Z.ltb_lt in L. rewrite L. reflexivity.
    + destruct (Z.ltb_spec (libc (y - 1900) (m - 1) d H M S)%Z 0); [lia|]. apply whole_time; [exact C|exact L].
Qed.
Print Assumptions C39_mktime.

(** A year from 2^31 on that passes the check makes the computation of tm_year overflow. *)
Theorem C39_mktime_year_refuted : forall conv libc, valid_fields (2 ^ 31) 1 1 0 0 0 /\ mk_time conv libc (2 ^ 31) 1 1 0 0 0 = UB.
Proof. intros conv libc. split; [unfold valid_fields; lia|reflexivity]. Qed.
Print Assumptions C39_mktime_year_refuted.

Definition trunc_conv (lo hi : Z) (d : binary64) : res Z :=
  if is_finite 53 1024 d && (lo <=? Btrunc 53 1024 d)%Z && (Btrunc 53 1024 d <=? hi)%Z then Ok (Btrunc 53 1024 d) else Throw Overflow.
Example C39_double_nonvacuous : converts (- 2 ^ 63) (2 ^ 63 - 1) (trunc_conv (- 2 ^ 63) (2 ^ 63 - 1)) /\
  converts 0 (2 ^ 64 - 1) (trunc_conv 0 (2 ^ 64 - 1)) /\ finite (of_int 3) /\ Bsign 53 1024 (of_int 3) = false /\ dval (of_int 3) = 3 /\
  interval_of_secs (trunc_conv (- 2 ^ 63) (2 ^ 63 - 1)) (of_int (-3)) = Ok (-3000000000)%Z.
Proof.
  assert (C : forall lo hi, converts lo hi (trunc_conv lo hi)).
  { intros lo hi d F H _. assert (E : Ztrunc (dval d) = Btrunc 53 1024 d).
    { apply eq_IZR. rewrite (Btrunc_correct 53 1024 eq_refl). unfold round, F2R, scaled_mantissa. cbn. rewrite !Rmult_1_r. reflexivity. }
    rewrite E in *. unfold trunc_conv. rewrite F. cbn. destruct (Z.leb_spec lo (Btrunc 53 1024 d)), (Z.leb_spec (Btrunc 53 1024 d) hi); try lia. reflexivity. }
  split; [apply C|]. split; [apply C|]. split; [reflexivity|]. split; [reflexivity|]. split; [apply of_int_exact; lia|].
  vm_compute. reflexivity.
Qed.

(** * C69 *)

Theorem C69_double_roundtrip : forall hl d o rest, o <> Undef ->
  exists bs, real_pack hl d Double o = Ok bs /\ length bs = 8%nat /\ real_unpack hl (bs ++ rest) Double o = Ok (Some (d, rest)).
Proof. exact double_roundtrip. Qed.
Print Assumptions C69_double_roundtrip.

Theorem C69_double_bytes : forall hl bs rest o, o <> Undef -> Forall is_byte bs -> length bs = 8%nat ->
  exists d, real_unpack hl (bs ++ rest) Double o = Ok (Some (d, rest)) /\ real_pack hl d Double o = Ok bs.
Proof. exact double_bytes. Qed.
Print Assumptions C69_double_bytes.

(** The bytes are the IEEE 754 interchange format. *)
Theorem C69_double_format : forall hl bs rest o s e m, o <> Undef -> Forall is_byte bs -> length bs = 8%nat ->
  (0 <= m < 2 ^ 52)%Z -> (0 <= e < 2 ^ 11)%Z -> be_val (big_endian hl o bs) = ieee_bits 52 11 s e m ->
  exists d, real_unpack hl (bs ++ rest) Double o = Ok (Some (d, rest)) /\
    ((e < 2047)%Z -> finite d /\ dval d = ieee_value 52 11 s e m) /\
    (e = 2047%Z -> m = 0%Z -> d = B754_infinity 53 1024 s) /\
    (e = 2047%Z -> m <> 0%Z -> is_nan 53 1024 d = true) /\ ((e < 2047)%Z \/ m = 0%Z -> Bsign 53 1024 d = s).
Proof.
  intros hl bs rest o s e m Ho F L Hm He E. eexists. split.
  - rewrite (real_unpack_app hl Double o bs rest 8 Ho F eq_refl L) by discriminate. reflexivity.
  - change (IntProofs.ordered_bytes hl o bs) with (big_endian hl o bs). rewrite E. apply b64_ieee; assumption.
Qed.
Print Assumptions C69_double_format.

Theorem C69_single_format : forall hl bs rest o s e m, o <> Undef -> Forall is_byte bs -> length bs = 4%nat ->
  (0 <= m < 2 ^ 23)%Z -> (0 <= e < 2 ^ 8)%Z -> be_val (big_endian hl o bs) = ieee_bits 23 8 s e m ->
  exists d, real_unpack hl (bs ++ rest) Single o = Ok (Some (d, rest)) /\
    ((e < 255)%Z -> finite d /\ dval d = ieee_value 23 8 s e m) /\
    (e = 255%Z -> m = 0%Z -> d = B754_infinity 53 1024 s) /\
    (e = 255%Z -> m <> 0%Z -> is_nan 53 1024 d = true) /\ ((e < 255)%Z \/ m = 0%Z -> Bsign 53 1024 d = s).
Proof.
  intros hl bs rest o s e m Ho F L Hm He E. eexists. split.
  - rewrite (real_unpack_app hl Single o bs rest 4 Ho F eq_refl L) by discriminate. reflexivity.
  - change (IntProofs.ordered_bytes hl o bs) with (big_endian hl o bs). rewrite E.
    destruct (b32_ieee s e m Hm He) as (A & B & C & D). cbv zeta in *. set (f := b32_of_bits (ieee_bits 23 8 s e m)) in *.
    split; [|split; [|split]].
    + intros H. destruct (A H) as [P Q]. destruct (to_double_finite f P) as (X & Y & _). rewrite Y. auto.
    + intros H K. rewrite (B H K). reflexivity.
    + intros H K. specialize (C H K). destruct f as [?|?|s' pl P|? ? ? ?]; try discriminate.
      destruct (to_double_nan s' pl P) as (p1 & H1 & -> & _). reflexivity.
    + intros H. specialize (D H). destruct (Z.lt_ge_cases e 255) as [K|K].
      * destruct (A K) as [P Q]. destruct (to_double_finite f P) as (_ & _ & ->). exact D.
      * destruct H as [H|H]; [lia|]. rewrite (B ltac:(lia) H). reflexivity.
Qed.
Print Assumptions C69_single_format.

(** Packing as single rounds to the nearest single; what is too large becomes infinite, NaN stays NaN. *)
Theorem C69_single_roundtrip : forall hl d o rest, o <> Undef ->
  exists bs d', real_pack hl d Single o = Ok bs /\ length bs = 4%nat /\ real_unpack hl (bs ++ rest) Single o = Ok (Some (d', rest)) /\
  (finite d -> Rabs (nearest32 (dval d)) < bpow radix2 128 ->
     finite d' /\ dval d' = nearest32 (dval d) /\ Bsign 53 1024 d' = Bsign 53 1024 d) /\
  (finite d -> bpow radix2 128 <= Rabs (nearest32 (dval d)) -> d' = B754_infinity 53 1024 (Bsign 53 1024 d)) /\
  (forall s, d = B754_infinity 53 1024 s -> d' = d) /\
  (is_nan 53 1024 d = true -> is_nan 53 1024 d' = true /\ Bsign 53 1024 d' = Bsign 53 1024 d).
Proof.
  intros hl d o rest Ho. destruct (single_roundtrip_raw hl d o rest Ho) as (bs & P & L & U).
  exists bs, (to_double (to_single d)). split; [exact P|]. split; [exact L|]. split; [exact U|]. apply single_values.
Qed.
Print Assumptions C69_single_roundtrip.

(** Numbers that are singles survive unchanged. *)
Theorem C69_single_exact : forall hl d o rest, o <> Undef -> finite d ->
  nearest32 (dval d) = dval d -> Rabs (dval d) < bpow radix2 128 ->
  exists bs, real_pack hl d Single o = Ok bs /\ real_unpack hl (bs ++ rest) Single o = Ok (Some (d, rest)).
Proof.
  intros hl d o rest Ho F E B. destruct (single_roundtrip_raw hl d o rest Ho) as (bs & P & L & U).
  rewrite single_exact in U by assumption. eauto.
Qed.
Print Assumptions C69_single_exact.

(** Any four bytes survive, except those of a signaling NaN. *)
Theorem C69_single_bytes : forall hl bs rest o, o <> Undef -> Forall is_byte bs -> length bs = 4%nat ->
  exists d, real_unpack hl (bs ++ rest) Single o = Ok (Some (d, rest)) /\
    (is_nan 53 1024 d = false \/ Z.testbit (be_val (big_endian hl o bs)) 22 = true -> real_pack hl d Single o = Ok bs).
Proof. exact single_bytes. Qed.
Print Assumptions C69_single_bytes.

Theorem C69_signaling_nan_refuted : exists d, real_unpack true [127; 128; 0; 1]%Z Single Big = Ok (Some (d, [])) /\
  real_pack true d Single Big = Ok [127; 192; 0; 1]%Z.
Proof.
  eexists. split; [|].
  - refine (real_unpack_app true Single Big [127; 128; 0; 1]%Z [] 4 _ _ eq_refl eq_refl _); [discriminate| |discriminate].
    repeat constructor; unfold is_byte; lia.
  - vm_compute. reflexivity.
Qed.
Print Assumptions C69_signaling_nan_refuted.

(** Too few bytes is an error, enough bytes is not; undefined types and byte orders. *)
Theorem C69_errors : forall hl bs t o d, Forall is_byte bs ->
  (o <> Undef -> t <> RUndef -> (real_unpack hl bs t o = Ok None <-> (length bs < match t with Single => 4 | _ => 8 end)%nat)) /\
  real_unpack hl bs RUndef o = Ok None /\ real_pack hl d RUndef o = Throw RuntimeError /\
  (t <> RUndef -> real_pack hl d t Undef = Throw RuntimeError) /\ real_unpack hl bs t Undef = Ok None.
Proof.
  intros hl bs t o d F. split; [intros; apply real_short; assumption|]. split; [reflexivity|]. split; [reflexivity|].
  split; [destruct t; [reflexivity|reflexivity|congruence]|].
  destruct t; [| |reflexivity]; unfold real_unpack.
  - destruct (Nat.ltb_spec (length bs) 4); [reflexivity|]. unfold unpack, unpack_in. cbn [nbytes it_width u32].
    destruct (Nat.ltb_spec (length bs) 4); reflexivity.
  - destruct (Nat.ltb_spec (length bs) 8); [reflexivity|]. unfold unpack, unpack_in. cbn [nbytes it_width u64].
    destruct (Nat.ltb_spec (length bs) 8); reflexivity.
Qed.
Print Assumptions C69_errors.

Example C69_nonvacuous : 
  real_pack true (of_int 1) Double Big = Ok [63; 240; 0; 0; 0; 0; 0; 0]%Z /\ real_pack true (of_int (-2)) Single Little = Ok [0; 0; 0; 192]%Z /\
  be_val (big_endian true Little [0; 0; 0; 192]%Z) = ieee_bits 23 8 true 128 0 /\ ieee_value 23 8 true 128 0 = -2.
Proof.
  split; [vm_compute; reflexivity|]. split; [vm_compute; reflexivity|]. split; [vm_compute; reflexivity|].
  unfold ieee_value. cbn. lra.
Qed.
