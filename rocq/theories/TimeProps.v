(** Property C39: arithmetic on times and intervals. *)
From Verif Require Import Base IntModel IntSpec TimeModel.
Open Scope Z_scope.

Definition is_time (t : Z) : Prop := 0 <= t < 2 ^ 64.
Definition is_interval (i : Z) : Prop := - 2 ^ 63 <= i < 2 ^ 63.

Lemma safe_u64_ok z : (is_time z /\ safe_u64 z = Ok z) \/ (~ is_time z /\ safe_u64 z = Throw Overflow).
Proof.
  unfold safe_u64, u64_ok, is_time. destruct (Z.leb_spec 0 z), (Z.ltb_spec z (2 ^ 64)); cbn [andb]; [left|right|right|right]; split; auto; lia.
Qed.
Lemma safe_i64_ok z : (is_interval z /\ safe_i64 z = Ok z) \/ (~ is_interval z /\ safe_i64 z = Throw Overflow).
Proof.
  unfold safe_i64, i64_ok, is_interval.
  destruct (Z.leb_spec (- 2 ^ 63) z), (Z.ltb_spec z (2 ^ 63)); cbn [andb]; [left|right|right|right]; split; auto; lia.
Qed.

(** Time + interval: the exact sum, or an exception if it is not a time (or, for a negative interval, if the time is 2^63
    nanoseconds or more). The interval of -2^63 nanoseconds is an exception, see below. *)
Theorem C39_time_plus_interval : forall t i, is_time t -> is_interval i -> i <> - 2 ^ 63 ->
  (is_time (t + i) -> (0 <= i \/ t < 2 ^ 63) -> time_add t i = Ok (t + i)) /\
  (~ (is_time (t + i) /\ (0 <= i \/ t < 2 ^ 63)) -> exists e, time_add t i = Throw e).
Proof.
  intros t i Ht Hi N. unfold time_add. destruct (Z.ltb_spec i 0).
  - unfold raw_neg64. destruct (Z.eqb_spec i (- 2 ^ 63)); [congruence|].
    destruct (safe_i64_ok t) as [[It ->]|[It ->]]; cbn [bind].
    + destruct (Z.ltb_spec t (- i)).
      * split; [unfold is_time in *; lia|eauto].
      * unfold is_interval in It. destruct (safe_u64_ok (t + i)) as [[Iu ->]|[Iu ->]]; (split; [intros; tauto|]); [|eauto].
        intros HN. exfalso. apply HN. split; [exact Iu|lia].
    + split; [unfold is_interval, is_time in *; lia|eauto].
  - cbn [bind]. destruct (safe_u64_ok (t + i)) as [[Iu ->]|[Iu ->]]; (split; [intros; tauto|]); [|eauto].
    intros HN. exfalso. apply HN. split; [exact Iu|lia].
Qed.
Print Assumptions C39_time_plus_interval.

(** Adding the smallest interval negates INT64_MIN: undefined behaviour instead of an exception. *)
Theorem C39_add_smallest_interval_refuted : forall t, 0 <= t < 2 ^ 63 ->
  is_time t /\ is_interval (- 2 ^ 63) /\ time_add t (- 2 ^ 63) = UB.
Proof.
  intros t Ht. split; [unfold is_time; lia|]. split; [unfold is_interval; lia|].
  unfold time_add. change (- 2 ^ 63 <? 0) with true. cbn iota.
  destruct (safe_i64_ok t) as [[_ ->]|[I _]]; [|unfold is_interval in I; lia]. reflexivity.
Qed.
Print Assumptions C39_add_smallest_interval_refuted.

(** For times of 2^63 nanoseconds and more it throws, like other negative intervals. *)
Theorem C39_add_smallest_interval : forall t, 2 ^ 63 <= t < 2 ^ 64 -> time_add t (- 2 ^ 63) = Throw Overflow.
Proof.
  intros t Ht. unfold time_add. change (- 2 ^ 63 <? 0) with true. cbn iota.
  destruct (safe_i64_ok t) as [[I _]|[_ ->]]; [unfold is_interval in I; lia|]. reflexivity.
Qed.
Print Assumptions C39_add_smallest_interval.

(** Time - interval: the exact difference if it is a time, an exception otherwise; all intervals. *)
Theorem C39_time_minus_interval : forall t i, is_time t -> is_interval i ->
  (is_time (t - i) -> time_sub t i = Ok (t - i)) /\ (~ is_time (t - i) -> exists e, time_sub t i = Throw e).
Proof.
  intros t i Ht Hi. unfold time_sub. destruct (Z.ltb_spec t i).
  - split; [unfold is_time; lia|eauto].
  - destruct (safe_u64_ok (t - i)) as [[Iu ->]|[Iu ->]]; (split; [intros; tauto|]); [intros; tauto|eauto].
Qed.
Print Assumptions C39_time_minus_interval.

(** Time - time: exact for times below 2^63 nanoseconds, an exception otherwise. *)
Theorem C39_time_minus_time : forall t u, is_time t -> is_time u ->
  (t < 2 ^ 63 /\ u < 2 ^ 63 -> time_diff t u = Ok (t - u)) /\
  (~ (t < 2 ^ 63 /\ u < 2 ^ 63) -> time_diff t u = Throw Overflow).
Proof.
  intros t u Ht Hu. unfold is_time in *. unfold time_diff.
  destruct (safe_i64_ok t) as [[It ->]|[It ->]]; unfold is_interval in *; cbn [bind]; [|split; [lia|reflexivity]].
  destruct (safe_i64_ok u) as [[Iu ->]|[Iu ->]]; unfold is_interval in *; cbn [bind]; [|split; [lia|reflexivity]].
  destruct (safe_i64_ok (t - u)) as [[Id ->]|[Id ->]]; unfold is_interval in *; split; auto; lia.
Qed.
Print Assumptions C39_time_minus_time.

(** Interval arithmetic: exact, or Overflow if the exact result is not an interval. The multiplier ranges over int64 and
    uint64. *)
Theorem C39_interval_arithmetic : forall i j k,
  (is_interval (i + j) -> ival_add i j = Ok (i + j)) /\ (~ is_interval (i + j) -> ival_add i j = Throw Overflow) /\
  (is_interval (i - j) -> ival_sub i j = Ok (i - j)) /\ (~ is_interval (i - j) -> ival_sub i j = Throw Overflow) /\
  (is_interval (i * k) -> ival_mul i k = Ok (i * k)) /\ (~ is_interval (i * k) -> ival_mul i k = Throw Overflow).
Proof.
  intros i j k. unfold ival_add, ival_sub, ival_mul.
  destruct (safe_i64_ok (i + j)) as [[? ->]|[? ->]]; destruct (safe_i64_ok (i - j)) as [[? ->]|[? ->]];
    destruct (safe_i64_ok (i * k)) as [[? ->]|[? ->]]; repeat split; intros; congruence || tauto.
Qed.
Print Assumptions C39_interval_arithmetic.

(** Adding and then subtracting an interval, or the reverse, gives back the time whenever both steps are defined. *)
Theorem C39_add_sub_cancel : forall t i r s, is_time t -> is_interval i ->
  (time_add t i = Ok r -> time_sub r i = Ok s -> s = t) /\ (time_sub t i = Ok r -> time_add r i = Ok s -> s = t).
Proof.
  intros t i r s Ht Hi.
  assert (A : forall x y, time_add x i = Ok y -> y = x + i).
  { intros x y E. unfold time_add in E. destruct (if i <? 0 then _ else _) as [b| |]; cbn [bind] in E; try discriminate E.
    destruct b; [discriminate E|]. destruct (safe_u64_ok (x + i)) as [[_ Q]|[_ Q]]; rewrite Q in E; congruence. }
  assert (B : forall x y, time_sub x i = Ok y -> y = x - i).
  { intros x y E. unfold time_sub in E. destruct (x <? i); [discriminate E|].
    destruct (safe_u64_ok (x - i)) as [[_ Q]|[_ Q]]; rewrite Q in E; congruence. }
  split; intros E1 E2; [apply A in E1; apply B in E2|apply B in E1; apply A in E2]; lia.
Qed.
Print Assumptions C39_add_sub_cancel.

Example C39_nonvacuous : is_time 5 /\ is_interval (-3) /\ time_add 5 (-3) = Ok 2 /\ time_add 5 (-6) = Throw RuntimeError /\
  time_add (2 ^ 64 - 1) 1 = Throw Overflow /\ time_sub 5 (- 2 ^ 63) = Ok (5 + 2 ^ 63) /\ time_diff 3 5 = Ok (-2) /\
  ival_mul (2 ^ 62) 2 = Throw Overflow.
Proof. unfold is_time, is_interval. repeat split; try lia; vm_compute; reflexivity. Qed.
