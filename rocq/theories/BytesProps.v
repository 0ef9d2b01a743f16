(** Properties C24-C27. *)
From Verif Require Import Base IntModel IntSpec IntProofs StrModel BytesModel BytesSpec BytesProofs BytesProofs2 BytesProofs3.
Open Scope Z_scope.

(** C24. For all strings and 64-bit offsets: OutOfRange if [from] lies behind the end; otherwise the bytes at positions
    from <= i < to that exist if from <= to, and everything from [from] on if the offsets are inverted (C24_sub_refuted:
    that is not an empty range or an exception). *)
Theorem C24_sub : forall s from to, 0 <= from < 2 ^ 64 -> 0 <= to < 2 ^ 64 -> blen s < 2 ^ 63 ->
  sub s from to =
    if blen s <? from then Throw OutOfRange
    else if from <=? to then Ok (slice s (Z.to_nat from) (Nat.min (Z.to_nat to) (length s)))
    else Ok (skipn (Z.to_nat from) s).
Proof.
  intros s from to Hf Ht Hs. destruct (Z.leb_spec from to) as [L|L].
  - rewrite sub_ok by lia. destruct (Z.leb_spec from (blen s)), (Z.ltb_spec (blen s) from); try lia; reflexivity.
  - destruct (Z.ltb_spec (blen s) from) as [G|G].
    + unfold sub, std_substr. destruct (Z.ltb_spec (blen s) from); [reflexivity|lia].
    + apply sub_inverted; lia.
Qed.
Print Assumptions C24_sub.

(** Whatever is returned was there: no byte from outside. *)
Theorem C24_sub_inside : forall s from to r, 0 <= from < 2 ^ 64 -> 0 <= to < 2 ^ 64 -> blen s < 2 ^ 63 ->
  sub s from to = Ok r -> exists a c, s = a ++ r ++ c /\ length a = Z.to_nat from.
Proof.
  intros s from to r Hf Ht Hs. rewrite C24_sub by assumption. destruct (Z.ltb_spec (blen s) from) as [G|G]; [discriminate|].
  assert (HL : (Z.to_nat from <= length s)%nat) by (unfold blen in G; lia).
  destruct (Z.leb_spec from to) as [L|L]; intros H; injection H as <-.
  - unfold slice. exists (firstn (Z.to_nat from) s).
    eexists (skipn _ (skipn (Z.to_nat from) s)). rewrite firstn_skipn, firstn_skipn. split; [reflexivity|]. apply firstn_length_le. exact HL.
  - exists (firstn (Z.to_nat from) s), []. rewrite app_nil_r, firstn_skipn. split; [reflexivity|]. apply firstn_length_le. exact HL.
Qed.
Print Assumptions C24_sub_inside.

(** With inverted offsets everything from [from] on is returned, not an empty range or an exception. *)
Theorem C24_sub_refuted : forall s from to, 0 <= to < from -> from <= blen s -> blen s < 2 ^ 63 ->
  sub s from to = Ok (skipn (Z.to_nat from) s).
Proof. intros. apply sub_inverted; lia. Qed.
Print Assumptions C24_sub_refuted.
Example C24_sub_refuted_case : sub [97; 98; 99] 1 0 = Ok [98; 99].
Proof. reflexivity. Qed.

Theorem C24_extract : forall s n, 0 <= n -> blen s < 2 ^ 63 ->
  extract s n = if n <=? blen s then Ok (firstn (Z.to_nat n) s, skipn (Z.to_nat n) s) else Throw InvalidArgument.
Proof. exact extract_ok. Qed.
Print Assumptions C24_extract.

Theorem C24_find : forall n s st, n <> [] -> (st <= length s)%nat ->
  exists k f, find_loop (skipn st s) n (Z.of_nat st) = (f, Z.of_nat k) /\ find_spec s n st f k.
Proof. exact find_from. Qed.
Print Assumptions C24_find.

Example C24_nonvacuous : sub [97; 98; 99; 100] 1 3 = Ok [98; 99] /\ sub [97] 2 3 = Throw OutOfRange /\
  find_loop [97; 98; 97; 99; 97] [97; 99] 0 = (true, 2) /\ find_loop [98; 97; 99] [97; 99; 100] 0 = (false, 1).
Proof. repeat split. Qed.

(** C25. One would expect: forall b s, 2 <= b <= 36 -> forall v, to_int s b = Ok v <-> numeral b s v /\ v in range of int64,
    and the same for to_uint with the range of uint64. That holds for the strings of C25_toInt and C25_toUInt; outside of
    them it fails as the C25_*_refuted theorems show. What happens on all inputs is stated by C25_toInt_exact and
    C25_toUInt_exact. *)
Theorem C25_toInt_exact : forall b s, 0 <= b ->
  to_int s b <> UB /\
  forall v, to_int s b = Ok v <->
    2 <= b mod 256 <= 36 /\ 1 <= blen s <= 255 /\
    exists u, reads (b mod 256) (snd (signed s)) u /\ u <= 2 ^ 63 /\
      v = if fst (signed s) then - u else if u =? 2 ^ 63 then - 2 ^ 63 else u.
Proof. exact to_int_exact. Qed.
Print Assumptions C25_toInt_exact.

Theorem C25_toUInt_exact : forall b s, 0 <= b ->
  to_uint s b <> UB /\
  forall v, to_uint s b = Ok v <->
    2 <= b mod 256 <= 36 /\ 1 <= blen s <= 255 /\
    exists u, reads (b mod 256) (snd (signed s)) u /\ v = u /\ if fst (signed s) then u = 0 else u < 2 ^ 63.
Proof. exact to_uint_exact. Qed.
Print Assumptions C25_toUInt_exact.

Theorem C25_toInt : forall b s, 2 <= b <= 36 -> Forall is_byte s -> Forall (plain_char b) s -> blen s <= 255 ->
  s <> [43] -> s <> [45] -> ~ numeral b s (2 ^ 63) ->
  to_int s b <> UB /\ forall v, to_int s b = Ok v <-> numeral b s v /\ - 2 ^ 63 <= v < 2 ^ 63.
Proof. exact to_int_ok. Qed.
Print Assumptions C25_toInt.

Theorem C25_toUInt : forall b s, 2 <= b <= 36 -> Forall is_byte s -> Forall (plain_char b) s -> blen s <= 255 ->
  s <> [43] -> s <> [45] ->
  to_uint s b <> UB /\ forall v, to_uint s b = Ok v <-> numeral b s v /\ 0 <= v < 2 ^ 63.
Proof. exact to_uint_ok. Qed.
Print Assumptions C25_toUInt.

(** "12" and "-7f" *)
Example C25_nonvacuous : to_int [49; 50] 10 = Ok 12 /\ to_int [45; 55; 102] 16 = Ok (-127) /\ plain_char 16 102 /\
  numeral 16 [45; 55; 102] (-127) /\ to_int [49; 103] 16 = Throw RuntimeError /\ to_int [] 10 = Throw InvalidArgument.
Proof.
  split; [reflexivity|]. split; [reflexivity|]. split; [right; split; [lia|left; lia]|]. split; [|split; reflexivity].
  change (-127) with (- (7 * 16 + 15)). apply num_minus. change [55; 102] with ([55] ++ [102]). apply digits_more; [constructor; reflexivity|reflexivity|reflexivity].
Qed.

(** ":" is accepted as a digit: ':' - '0' = 10 in base 16. *)
Theorem C25_not_a_digit_accepted_refuted : exists s v, to_int s 16 = Ok v /\ ~ exists w, numeral 16 s w.
Proof.
  exists [58], 10. split; [reflexivity|]. intros [w H]. inversion H as [s v Hd| |]; subst.
  destruct (digits_head _ _ _ Hd) as (c & r & E & Hc). injection E as <- <-. apply Hc. reflexivity.
Qed.
Print Assumptions C25_not_a_digit_accepted_refuted.

(** "A" in base 36 is read as 17 instead of 10. *)
Theorem C25_wrong_value_refuted : exists s v w, to_int s 36 = Ok v /\ numeral 36 s w /\ v <> w /\ to_uint s 36 = Ok v.
Proof.
  exists [65], 17, 10. split; [reflexivity|]. split; [constructor; constructor; reflexivity|]. split; [lia|reflexivity].
Qed.
Print Assumptions C25_wrong_value_refuted.

(** A lone sign is read as zero. *)
Theorem C25_lone_sign_refuted : forall b, 2 <= b <= 36 -> to_int [45] b = Ok 0 /\ ~ exists w, numeral b [45] w.
Proof.
  intros b Hb. split.
  - unfold to_int, atoi_s64, atoi_n. rewrite Z.mod_small by lia. destruct (Z.ltb_spec b 2); [lia|]. destruct (Z.ltb_spec 36 b); [lia|reflexivity].
  - intros [w H]. inversion H as [s v Hd|s v Hd|s v Hd]; subst; destruct (digits_head _ _ _ Hd) as (c & r & E & Hc); [|discriminate].
    injection E as <- <-. apply Hc. reflexivity.
Qed.
Print Assumptions C25_lone_sign_refuted.

(** The numeral of 2^63 is read as -2^63 instead of being rejected; as unsigned number it is rejected although it fits. *)
Theorem C25_min_max_refuted : exists s, numeral 10 s (2 ^ 63) /\ to_int s 10 = Ok (- 2 ^ 63) /\ to_uint s 10 = Throw Overflow.
Proof.
  exists [57;50;50;51;51;55;50;48;51;54;56;53;52;55;55;53;56;48;56]. split; [|split; vm_compute; reflexivity].
  constructor. apply dval_digits; [lia| | |discriminate|vm_compute; reflexivity].
  - repeat (apply Forall_cons; [unfold is_byte; lia|]). apply Forall_nil.
  - apply Forall_forall. intros x Hx. left. lia.
Qed.
Print Assumptions C25_min_max_refuted.

(** The number of consumed characters is truncated to eight bits, so numerals of 256 and more characters are rejected. *)
Theorem C25_long_numeral_refuted : exists s, numeral 10 s 0 /\ to_int s 10 = Throw RuntimeError.
Proof.
  exists (repeat 48 256). split; [|vm_compute; reflexivity]. constructor. apply dval_digits; [lia| | |discriminate|vm_compute; reflexivity].
  - apply Forall_forall. intros x Hx. apply repeat_spec in Hx. subst x. unfold is_byte. lia.
  - apply Forall_forall. intros x Hx. left. lia.
Qed.
Print Assumptions C25_long_numeral_refuted.

(** The base is truncated to eight bits as well: base 266 is base 10. *)
Theorem C25_base_truncated_refuted : exists s v, to_int s 266 = Ok v.
Proof. exists [49], 1. reflexivity. Qed.
Print Assumptions C25_base_truncated_refuted.

(** C26. All byte orders but Host give the value; Undef is rejected (C26_undefined_order_rejected); Host gives the value
    unless its top bit is set, in which case the conversion throws (C26_host_order, C26_host_refuted). *)
Theorem C26_binary_to_integer : forall hl s o, Forall is_byte s -> (o = Big \/ o = Network \/ o = Little) ->
  to_uint_ord hl s o = (if (1 <=? blen s) && (blen s <=? 8) then Ok (be_val (msb_first hl o s)) else Throw InvalidValue) /\
  to_int_ord hl s o = (if (1 <=? blen s) && (blen s <=? 8) then Ok (twos_complement (length s) (be_val (msb_first hl o s))) else Throw InvalidValue).
Proof.
  intros hl s o HF Ho. pose proof (to_uint_plain_ok hl s o HF Ho) as A. pose proof (to_int_plain_ok hl s o HF Ho) as B.
  unfold to_int_ord, to_uint_ord. unfold to_int_plain in B. destruct Ho as [-> | [-> | ->]]; auto.
Qed.
Print Assumptions C26_binary_to_integer.

Theorem C26_undefined_order_rejected : forall hl s, to_uint_ord hl s Undef = Throw InvalidArgument /\ to_int_ord hl s Undef = Throw InvalidArgument.
Proof. split; reflexivity. Qed.
Print Assumptions C26_undefined_order_rejected.

Theorem C26_little_is_big_of_reverse : forall hl s, Forall is_byte s ->
  to_uint_ord hl s Little = to_uint_ord hl (rev s) Big /\ to_int_ord hl s Little = to_int_ord hl (rev s) Big.
Proof.
  intros hl s HF. destruct (C26_binary_to_integer hl s Little HF ltac:(auto)) as [-> ->].
  destruct (C26_binary_to_integer hl (rev s) Big (Forall_rev HF) ltac:(auto)) as [-> ->].
  unfold blen. rewrite rev_length. cbn [msb_first]. auto.
Qed.
Print Assumptions C26_little_is_big_of_reverse.

Theorem C26_host_order_length : forall hl s, Forall is_byte s -> ~ (1 <= length s <= 8)%nat ->
  to_uint_ord hl s Host = Throw InvalidValue /\ to_int_ord hl s Host = Throw InvalidValue.
Proof.
  intros hl s HF HL. unfold to_int_ord, to_uint_ord. rewrite to_int_plain_ok by (auto; destruct hl; cbn; auto).
  assert (E : (1 <=? blen s) && (blen s <=? 8) = false).
  { unfold blen. destruct (Z.leb_spec 1 (Z.of_nat (length s))), (Z.leb_spec (Z.of_nat (length s)) 8); cbn [andb]; try reflexivity. exfalso. apply HL. lia. }
  rewrite E. auto.
Qed.
Print Assumptions C26_host_order_length.

(** In host order, values with the top bit set are not convertible, neither signed nor unsigned; otherwise the value is right. *)
Theorem C26_host_order : forall hl s, Forall is_byte s -> (1 <= length s <= 8)%nat ->
  let v := be_val (msb_first hl Host s) in
  if v <? 2 ^ (8 * blen s - 1) then to_uint_ord hl s Host = Ok v /\ to_int_ord hl s Host = Ok v
  else to_uint_ord hl s Host = Throw Overflow /\ to_int_ord hl s Host = Throw Overflow.
Proof.
  intros hl s HF HL v. unfold to_int_ord, to_uint_ord.
  rewrite to_int_plain_ok by (auto; destruct hl; cbn; auto).
  assert (E : msb_first hl (sys_order hl) s = msb_first hl Host s) by (destruct hl; reflexivity). rewrite E. fold v.
  pose proof (be_val_range (msb_first hl Host s) (msb_ok hl Host s HF)) as Rg. fold v in Rg. rewrite msb_length, pow256_8 in Rg.
  destruct (Z.leb_spec 1 (blen s)) as [L1|L1]; [|unfold blen in L1; lia].
  destruct (Z.leb_spec (blen s) 8) as [L2|L2]; [|unfold blen in L2; lia]. cbn [andb bind].
  unfold twos_complement, blen in *. destruct (Z.ltb_spec v (2 ^ (8 * Z.of_nat (length s) - 1))) as [L|L]; unfold safe_u64.
  - destruct (Z.ltb_spec v 0); [lia|]. cbn [bind]. split; [reflexivity|]. rewrite sign_extend_ok by lia. unfold twos_complement.
    destruct (Z.ltb_spec v (2 ^ (8 * Z.of_nat (length s) - 1))); [reflexivity|lia].
  - destruct (Z.ltb_spec (v - 2 ^ (8 * Z.of_nat (length s))) 0); [auto|lia].
Qed.
Print Assumptions C26_host_order.

Theorem C26_host_refuted : exists hl s, to_uint_ord hl s Host = Throw Overflow /\ to_int_ord hl s Host = Throw Overflow /\
  to_uint_ord hl s Little = Ok 255 /\ to_int_ord hl s Little = Ok (-1).
Proof. exists true, [255]. repeat split. Qed.
Print Assumptions C26_host_refuted.

Example C26_nonvacuous : to_uint_ord true [1; 2] Big = Ok 258 /\ to_int_ord true [254; 255] Little = Ok (-2) /\ to_uint_ord true [] Big = Throw InvalidValue.
Proof. repeat split. Qed.

(** C27: every program that names existing objects sees exactly what the abstract iterators (object, epoch, index) give;
    in particular never a byte of another object, and nothing undefined happens. *)
Theorem C27_iterators_are_safe : forall ps, bprog_ok am_init ps ->
  btrace bm_init ps = atrace am_init ps /\ ~ In UB (btrace bm_init ps).
Proof. intros ps H. destruct (trace_sim ps [] bm_init am_init rel_init H) as [E U]. rewrite E. auto. Qed.
Print Assumptions C27_iterators_are_safe.

(** Iterators keep working after append, expire at assignment, and throw IndexError behind the end. *)
Definition C27_prog : list bop :=
  [BNew [97; 98]; BAt 0 0; BAppend 0 [99]; BAdvance 0 2; BDeref 1; BAdvance 0 3; BDeref 2; BNew [120]; BAssign 0 1; BDeref 0; BAt 0 0; BDeref 3;
   BEq 0 3; BDestroy 0; BDeref 3].
Example C27_nonvacuous : bprog_ok am_init C27_prog /\
  btrace bm_init C27_prog = [Ok ONone; Ok ONone; Ok ONone; Ok ONone; Ok (OByte 99); Ok ONone; Throw IndexError; Ok ONone; Ok ONone;
    Throw InvalidIterator; Ok ONone; Ok (OByte 120); Throw InvalidArgument; Ok ONone; Throw InvalidIterator].
Proof.
  split; [|vm_compute; reflexivity]. unfold C27_prog.
  repeat match goal with
  | |- bprog_ok _ [] => exact I
  | |- bprog_ok ?m (?p :: ?ps) =>
      let m' := eval vm_compute in (res_state m (astep m p)) in
      change (bop_ok m p /\ bprog_ok m' ps); split; [cbn [bop_ok]; repeat split; try (vm_compute; discriminate); vm_compute; repeat constructor|]
  end.
Qed.
