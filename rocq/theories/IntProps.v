(** Properties C32-C34. [hl] is the byte order of the machine (true: little endian); all theorems hold for both. *)
From Verif Require Import Base IntModel IntSpec IntProofs.
Open Scope Z_scope.

(** C32. All values of all types can be packed except negative int8 values (see C32_negative_int8_refuted). *)
Theorem C32_pack_unpack_roundtrip : forall hl t v o rest, packable t v -> o <> Undef ->
  exists bs, pack hl t v o = Ok bs /\ length bs = nbytes (it_width t) /\
    unpack hl t (bs ++ rest) o = Ok (Some (v, rest)).
Proof. intros hl t v o rest [Hv Hp]. apply pack_unpack; assumption. Qed.
Print Assumptions C32_pack_unpack_roundtrip.

Theorem C32_unpack_pack_roundtrip : forall hl t bs rest o v r,
  o <> Undef -> Forall is_byte bs -> length bs = nbytes (it_width t) ->
  unpack hl t (bs ++ rest) o = Ok (Some (v, r)) -> in_type t v /\ r = rest /\ (packable t v -> pack hl t v o = Ok bs).
Proof.
  intros hl t bs rest o v r Ho HF HL E. destruct (unpack_pack hl t bs rest o v r Ho HF HL E) as (A & B & C).
  repeat split; auto. intros [_ Hp]. auto.
Qed.
Print Assumptions C32_unpack_pack_roundtrip.

(** Too few bytes is an error, enough bytes is not. *)
Theorem C32_unpack_error_iff_short : forall hl t bs o, o <> Undef -> Forall is_byte bs ->
  (unpack hl t bs o = Ok None <-> (length bs < nbytes (it_width t))%nat) /\ unpack hl t bs o <> UB.
Proof.
  intros hl t bs o Ho HF. destruct (Nat.lt_ge_cases (length bs) (nbytes (it_width t))) as [H|H].
  - rewrite (unpack_short hl t bs o H). repeat split; auto; discriminate.
  - rewrite <- (firstn_skipn (nbytes (it_width t)) bs). rewrite unpack_ok; [|exact Ho|rewrite firstn_length; lia|].
    + repeat split; [discriminate| |discriminate]. rewrite firstn_skipn. lia.
    + rewrite <- (firstn_skipn (nbytes (it_width t)) bs) in HF. apply Forall_app in HF. tauto.
Qed.
Print Assumptions C32_unpack_error_iff_short.

(** What the bytes are: two's complement, most significant byte first in Big; Network is Big, Little the reverse. *)
Theorem C32_pack_is_twos_complement : forall hl t v, packable t v ->
  exists bs, pack hl t v Big = Ok bs /\ be_repr t v bs /\
  pack hl t v Network = Ok bs /\ pack hl t v Little = Ok (rev bs) /\ pack hl t v Host = Ok (if hl then rev bs else bs).
Proof. intros hl t v [Hv Hp]. apply pack_repr; assumption. Qed.
Print Assumptions C32_pack_is_twos_complement.

(** Packing any negative int8 throws Overflow (range-checked cast of a signed to an unsigned byte), although unpacking
    yields such values. *)
Theorem C32_negative_int8_refuted : forall hl v o, -128 <= v < 0 -> o <> Undef ->
  in_type (mkIty true W8) v /\ pack hl (mkIty true W8) v o = Throw Overflow /\
  unpack hl (mkIty true W8) [v + 256] o = Ok (Some (v, [])).
Proof.
  intros hl v o Hv Ho. split; [cbn; lia|]. assert (N : (v <? 0) = true) by (apply Z.ltb_lt; lia). split.
  - destruct o, hl; unfold pack, pack_in; cbn [sys_order it_width]; rewrite ?N; (reflexivity || congruence).
  - assert (W : wrap (mkIty true W8) (v + 256) = v).
    { unfold wrap. cbn [it_width it_signed bits_of andb]. change (2 ^ 8) with 256. rewrite Z.mod_small by lia.
      change (256 / 2) with 128. assert ((128 <=? v + 256) = true) as -> by (apply Z.leb_le; lia). lia. }
    destruct o, hl; cbn -[wrap Z.add]; rewrite ?W; (reflexivity || congruence).
Qed.
Print Assumptions C32_negative_int8_refuted.

(** An undefined byte order is refused: pack throws, unpack returns an error. *)
Theorem C32_undefined_order : forall hl t v bs, pack hl t v Undef = Throw RuntimeError /\ unpack hl t bs Undef = Ok None.
Proof. intros hl t v bs. split; [reflexivity|]. unfold unpack, unpack_in. destruct (length bs <? _)%nat; reflexivity. Qed.
Print Assumptions C32_undefined_order.

Example C32_nonvacuous : packable (mkIty true W32) (-2) /\
  pack true (mkIty true W32) (-2) Big = Ok [255;255;255;254] /\ pack true (mkIty false W64) 258 Little = Ok [2;1;0;0;0;0;0;0].
Proof. repeat split; cbn; try lia; discriminate. Qed.

(** C33 *)
Theorem C33_flip_reverses_bytes : forall hl w bs, Forall is_byte bs -> length bs = nbytes w ->
  flip_impl hl w (be_val bs) = be_val (rev bs).
Proof. exact flip_reverses. Qed.
Print Assumptions C33_flip_reverses_bytes.

Theorem C33_flip_involutive : forall hl w v, 0 <= v < 2 ^ bits_of w -> flip_impl hl w (flip_impl hl w v) = v.
Proof. exact flip_involutive. Qed.
Print Assumptions C33_flip_involutive.

Theorem C33_flip_n_reverses_low_bytes : forall hl hi bs, Forall is_byte hi -> Forall is_byte bs ->
  (0 < length bs)%nat -> (length hi + length bs = 8)%nat ->
  flip_u hl (be_val (hi ++ bs)) (Z.of_nat (length bs)) = Ok (be_val (rev bs)).
Proof. exact flip_u_ok. Qed.
Print Assumptions C33_flip_n_reverses_low_bytes.

Theorem C33_flip_signed_n_reverses_low_bytes : forall hl v hi bs,
  in_type (mkIty true W64) v -> be_repr (mkIty true W64) v (hi ++ bs) -> bs <> [] -> hi <> [] ->
  flip_s hl v (Z.of_nat (length bs)) = Ok (be_val (rev bs)).
Proof. exact flip_s_small. Qed.
Print Assumptions C33_flip_signed_n_reverses_low_bytes.

Theorem C33_flip_signed_8_is_involutive : forall hl v, in_type (mkIty true W64) v ->
  exists f, flip_s hl v 8 = Ok f /\ in_type (mkIty true W64) f /\ flip_s hl f 8 = Ok v.
Proof. exact flip_s_invol. Qed.
Print Assumptions C33_flip_signed_8_is_involutive.

(** hton16/32/64 and ntoh: the object representation of the result is the number, most significant byte first; reading
    such a representation back gives the number. *)
Theorem C33_network_order : forall hl w bs, Forall is_byte bs -> length bs = nbytes w ->
  mem_of hl (nbytes w) (hton hl w (be_val bs)) = bs /\ hton hl w (val_of hl bs) = be_val bs.
Proof.
  intros hl w bs F L. unfold hton, mem_of, val_of. destruct hl.
  - rewrite flip_reverses by assumption. split.
    + rewrite <- le_val_rev, rev_involutive, <- L. apply le_bytes_val. exact F.
    + rewrite <- (rev_involutive bs) at 1. rewrite le_val_rev, flip_reverses; [|apply Forall_rev; exact F|rewrite rev_length; exact L].
      rewrite rev_involutive. reflexivity.
  - split; [|apply le_val_rev]. rewrite <- le_val_rev, <- L, <- (rev_length bs), le_bytes_val by (apply Forall_rev; exact F). apply rev_involutive.
Qed.
Print Assumptions C33_network_order.

Example C33_nonvacuous : flip_impl true W32 (be_val [1;2;3;4]) = be_val [4;3;2;1] /\
  flip_u true (be_val ([0;0;0;9;9] ++ [1;2;3])) 3 = Ok (be_val [3;2;1]) /\
  be_repr (mkIty true W64) (-2) ([255;255;255] ++ [255;255;255;255;254]).
Proof.
  split; [vm_compute; reflexivity|]. split; [vm_compute; reflexivity|]. split; [reflexivity|]. split; [|reflexivity].
  repeat constructor; unfold is_byte; lia.
Qed.

(** C34. In LSB0 order position i is bit i; in MSB0 order position i is bit (width - 1 - i). *)
Theorem C34_bits_extracts_range : forall w v lower upper bo,
  0 <= v < 2 ^ bits_of w -> 0 <= lower <= upper -> upper < bits_of w -> bo <> BitUndef ->
  exists r, bits w v lower upper bo = Ok r /\
    forall i, 0 <= i -> Z.testbit r i =
      (i <=? upper - lower) && Z.testbit v (i + match bo with MSB0 => bits_of w - 1 - upper | _ => lower end).
Proof. exact bits_ok. Qed.
Print Assumptions C34_bits_extracts_range.

Theorem C34_bits_throws_iff_bad_range : forall w v lower upper bo,
  0 <= v < 2 ^ bits_of w -> 0 <= lower -> 0 <= upper -> bo <> BitUndef ->
  (bits w v lower upper bo = Throw InvalidArgument <-> (upper < lower \/ bits_of w <= upper)).
Proof.
  intros w v lower upper bo Hv Hl Hu Hb. split; [|apply bits_err].
  intros E. destruct (Z.ltb_spec upper lower); [left; lia|]. destruct (Z.leb_spec (bits_of w) upper); [right; lia|].
  destruct (bits_ok w v lower upper bo) as (r & E2 & _); auto. congruence.
Qed.
Print Assumptions C34_bits_throws_iff_bad_range.

Example C34_nonvacuous : bits W8 180 2 5 LSB0 = Ok 13 /\ bits W8 180 2 5 MSB0 = Ok 13 /\ bits W8 180 0 2 MSB0 = Ok 5 /\
  bits W64 (2 ^ 63) 63 63 LSB0 = Ok 1 /\ bits W8 180 5 2 LSB0 = Throw InvalidArgument.
Proof. vm_compute. repeat split. Qed.
