(** Properties C62-C66: escape sequences, UTF-8, UTF-16, upper and lower case. *)
From Verif Require Import Base StrModel UniModel UniSpec UniProofs UniProofs2 UniProofs3 UniProofs4.
Open Scope Z_scope.

(** C62. Expanding escape sequences: a result is returned exactly if every backslash starts one of the documented sequences, and
    the result is the text they stand for. Otherwise one of four exceptions is thrown. *)
Theorem C62_exact : forall s r, expand_escapes s = Ok r <-> unescapes s r.
Proof. intros s r. split; [apply expand_fwd|intros H; apply expand_bwd; auto]. Qed.
Print Assumptions C62_exact.
Theorem C62_otherwise_throws : forall s, (forall r, ~ unescapes s r) ->
  exists e, expand_escapes s = Throw e /\ (e = RuntimeError \/ e = UnicodeError \/ e = FormattingError \/ e = OutOfRange).
Proof.
  intros s N. pose proof (expand_exn (length s) s (le_n _)) as E. destruct (expand_escapes s) as [r|e|] eqn:Q; unfold expand_escapes in Q; rewrite Q in E.
  - exfalso. apply (N r), C62_exact. exact Q.
  - eauto.
  - contradiction.
Qed.
Print Assumptions C62_otherwise_throws.
(** "\u00e4\n" is "ä" and a line feed. *)
Example C62_nonvacuous : unescapes [92;117;48;48;101;52; 92;110] [195;164;10].
Proof. apply C62_exact. reflexivity. Qed.
(** "\x4?" and "\x-1" are accepted. *)
Theorem C62_not_hexadecimal_refuted : unescapes [92;120;52;63] [79] /\ unescapes [92;120;45;49] [255].
Proof. split; apply C62_exact; reflexivity. Qed.
(** a surrogate, which UTF-8 cannot represent, is accepted. *)
Theorem C62_surrogate_refuted : exists s r, unescapes s r /\ Forall (fun c => 0 <= c < 128) s /\ ~ valid8 r.
Proof.
  exists [92;117;100;56;48;48], [237;160;128]. split; [apply C62_exact; reflexivity|]. split; [repeat constructor; lia|].
  intros (cps & T). pose proof (decode8_id [237;160;128] Strict (ex_intro _ cps T)) as D. vm_compute in D. discriminate.
Qed.

(** C63. Rendering a string: the exact result for all strings and styles. For valid UTF-8 it can be read back if the style
    escapes backslashes. *)
Theorem C63_exact : forall st s, Forall is_byte s ->
  renders (u_quotes st) (u_no_backslash st) (u_no_control st) (u_no_hex st) s (escape_utf8 st s).
Proof. intros st s F. apply escape_renders; auto. Qed.
Print Assumptions C63_exact.
Theorem C63_reversible : forall st s, valid8 s -> u_no_backslash st = false -> u_no_hex st = false -> expand_escapes (escape_utf8 st s) = Ok s.
Proof. intros st s (cps & T) B X. apply C62_exact. eapply escape_utf8_unescapes; eauto. Qed.
Print Assumptions C63_reversible.
Example C63_nonvacuous : valid8 [195;164;34;92;10] /\ escape_utf8 (mkUStyle true false false false) [195;164;34;92;10] = [195;164;92;34;92;92;92;110].
Proof. split; [exists [228;34;92;10]; apply (text8_of [228;34;92;10]); repeat constructor; lia|reflexivity]. Qed.
Theorem C63_invalid_refuted : exists st s, Forall is_byte s /\ u_no_backslash st = false /\ u_no_hex st = false /\ expand_escapes (escape_utf8 st s) <> Ok s.
Proof. exists (mkUStyle false false false false), [255]. repeat split; [repeat constructor; unfold is_byte; lia|discriminate]. Qed.

(** C64. Decoding and encoding UTF-8. *)
Theorem C64_replace_and_ignore_exact : forall s st r, Forall is_byte s -> st <> Strict ->
  (bytes_decode s UTF8 st = Ok r <-> repaired (match st with Replace => fffd | _ => [] end) s r []).
Proof. intros s st r F NS. exact (decode8_exact s st r F NS). Qed.
Print Assumptions C64_replace_and_ignore_exact.
Theorem C64_strict_exact : forall s r, Forall is_byte s -> (bytes_decode s UTF8 Strict = Ok r <-> valid8 s /\ r = s).
Proof. intros. apply decode8_strict; auto. Qed.
Print Assumptions C64_strict_exact.
Theorem C64_otherwise_runtime_error : forall s st, Forall is_byte s -> (forall r, bytes_decode s UTF8 st <> Ok r) -> bytes_decode s UTF8 st = Throw RuntimeError.
Proof. apply decode8_throws. Qed.
Print Assumptions C64_otherwise_runtime_error.
Theorem C64_result_is_valid : forall s st r, Forall is_byte s -> bytes_decode s UTF8 st = Ok r -> valid8 r.
Proof. apply decode8_valid. Qed.
Print Assumptions C64_result_is_valid.
Theorem C64_valid_unchanged : forall s st, valid8 s -> bytes_decode s UTF8 st = Ok s.
Proof. apply decode8_id. Qed.
Print Assumptions C64_valid_unchanged.
Theorem C64_encode_is_decode : forall s st, string_encode s UTF8 st = bytes_decode s UTF8 st.
Proof. intros. rewrite encode8, decode8. reflexivity. Qed.
Print Assumptions C64_encode_is_decode.
(** Every input has exactly one repaired text, up to a position where the decoder gives up. *)
Theorem C64_repair_is_a_function : forall mark s, Forall is_byte s ->
  exists r stop, repaired mark s r stop /\ forall r' stop', repaired mark s r' stop' -> r' = r /\ stop' = stop.
Proof.
  intros mark s F. destruct (repaired_total mark s F) as (r & stop & R). exists r, stop. split; [exact R|]. intros r' stop' R'.
  eapply repaired_fun; eauto.
Qed.
Print Assumptions C64_repair_is_a_function.
Example C64_nonvacuous : repaired fffd [97;255;195;164] [97;239;191;189;195;164] [] /\ repaired [] [97;255;195;164] [97;195;164] [].
Proof. split; [apply (decode8_exact _ Replace)|apply (decode8_exact _ Ignore)]; try discriminate; try reflexivity; repeat constructor; unfold is_byte; lia. Qed.
(** REPLACE and IGNORE do not repair a sequence that is cut off at the end of the data, nor a surrogate or a number too large. *)
Theorem C64_repair_fails_refuted : bytes_decode [97; 195] UTF8 Replace = Throw RuntimeError /\ bytes_decode [237;160;128;97] UTF8 Ignore = Throw RuntimeError.
Proof. split; reflexivity. Qed.

(** ASCII: the printable characters 32 to 126 are kept. *)
Theorem C64_ascii_exact : forall s st r, st <> Strict ->
  ((bytes_decode s ASCII st = Ok r <-> ascii_repaired (match st with Replace => [63] | _ => [] end) s r) /\ string_encode s ASCII st = bytes_decode s ASCII st).
Proof.
  intros s st r NS. split; [|destruct s; reflexivity]. rewrite <- (ascii_exact s st r NS). destruct s as [|c s]; [reflexivity|].
  change (bytes_decode (c :: s) ASCII st) with (wrap (transcode_ascii st (c :: s))).
  destruct (ascii_total (mark_ascii st) (c :: s)) as (r0 & R). apply ascii_exact in R; [|exact NS]. rewrite R. reflexivity.
Qed.
Print Assumptions C64_ascii_exact.
Theorem C64_ascii_strict : forall s r, (bytes_decode s ASCII Strict = Ok r <-> Forall printable s /\ r = s) /\ string_encode s ASCII Strict = bytes_decode s ASCII Strict.
Proof.
  intros s r. split; [|destruct s; reflexivity].
  assert (D : bytes_decode s ASCII Strict = wrap (transcode_ascii Strict s)) by (destruct s; reflexivity). rewrite D.
  destruct (ascii_strict s) as [[-> P]|[-> P]]; cbn; split; try discriminate; try tauto; [intros Q; split; congruence|intros [_ ->]; reflexivity].
Qed.
Print Assumptions C64_ascii_strict.
Theorem C64_ascii_always_succeeds : forall s st, st <> Strict -> exists r, bytes_decode s ASCII st = Ok r.
Proof. intros s st NS. destruct (ascii_total (mark_ascii st) s) as (r & R). exists r. apply C64_ascii_exact; auto. Qed.
Print Assumptions C64_ascii_always_succeeds.
(** White space other than the blank is not kept. *)
Theorem C64_ascii_whitespace_refuted : bytes_decode [97;10;98] ASCII Replace = Ok [97;63;98].
Proof. reflexivity. Qed.

(** The size of a string is the number of its characters; of a string that is not valid UTF-8 it is that of the repaired string. *)
Theorem C64_size_valid : forall st s cps, text8 cps s -> string_size (length s) st s = Some (Ok (Z.of_nat (length cps))).
Proof. intros st s cps T. unfold string_size. rewrite (size_valid st s cps T) by lia. reflexivity. Qed.
Print Assumptions C64_size_valid.
Theorem C64_size_repaired : forall st s, Forall is_byte s -> st = Replace \/ st = Ignore ->
  (exists r cps, repaired (match st with Replace => fffd | _ => [] end) s r [] /\ text8 cps r /\ string_size (length s) st s = Some (Ok (Z.of_nat (length cps)))) \/
  ((forall r, ~ repaired (match st with Replace => fffd | _ => [] end) s r []) /\ string_size (length s) st s = Some (Throw ForeignException)).
Proof.
  intros st s F ST. destruct (repaired_total (mark8 st) s F) as (r & stop & R).
  destruct (size_repaired st s F ST r stop R (length s) 0 (le_n _)) as [(A & B)|(-> & cps & T & B)].
  - right. split; [|exact B]. intros r' R'. destruct (repaired_fun _ _ F _ _ _ _ R R') as (_ & ->). congruence.
  - left. exists r, cps. auto.
Qed.
Print Assumptions C64_size_repaired.
Theorem C64_size_strict : forall s, Forall is_byte s -> ~ valid8 s -> exists e, string_size (length s) Strict s = Some (Throw e).
Proof. intros s F V. apply size_strict; auto. Qed.
Print Assumptions C64_size_strict.
(** Without a strategy the loop never ends on invalid UTF-8; the exception for truncated data is not one of the runtime's. *)
Theorem C64_size_hangs_refuted : forall fuel, string_size fuel NoStrategy [255] = None.
Proof. intros fuel. unfold string_size. generalize 0. induction fuel as [|f IH]; intros n; [reflexivity|]. exact (IH n). Qed.
Theorem C64_size_foreign_exception_refuted : string_size 1 Strict [195] = Some (Throw ForeignException).
Proof. reflexivity. Qed.

(** C65. UTF-16. *)
Theorem C65_encode_exact : forall cs st s r, cs = UTF16LE \/ cs = UTF16BE -> Forall is_byte s ->
  (string_encode s cs st = Ok r <->
   exists t cps us, bytes_decode s UTF8 st = Ok t /\ text8 cps t /\ text16 cps us /\ serial (is_big cs) us r).
Proof. intros cs st s r CS F. rewrite (encode16_exact cs st s r CS F). setoid_rewrite C64_encode_is_decode. reflexivity. Qed.
Print Assumptions C65_encode_exact.
Theorem C65_decode_exact : forall cs st us s r, cs = UTF16LE \/ cs = UTF16BE -> st <> Strict -> serial (is_big cs) us s ->
  (cs = UTF16BE -> forall u t, us = u :: t -> u <> 65279 /\ u <> 65534) ->
  (bytes_decode s cs st = Ok r <-> exists cps, repaired16 (match st with Replace => [65533] | _ => [] end) us cps [] /\ text8 cps r).
Proof.
  intros cs st us s r CS NS S1 NB. apply (decode16_exact cs st us s r CS NS S1). intros B. specialize (NB B). destruct us; cbn; eauto.
Qed.
Print Assumptions C65_decode_exact.
Theorem C65_decode_strict_exact : forall cs us s r, cs = UTF16LE \/ cs = UTF16BE -> serial (is_big cs) us s ->
  (cs = UTF16BE -> forall u t, us = u :: t -> u <> 65279 /\ u <> 65534) ->
  (bytes_decode s cs Strict = Ok r <-> exists cps, text16 cps us /\ text8 cps r).
Proof.
  intros cs us s r CS S1 NB. apply (decode16_strict cs us s r CS S1). intros B. specialize (NB B). destruct us; cbn; eauto.
Qed.
Print Assumptions C65_decode_strict_exact.
Theorem C65_otherwise_runtime_error : forall cs st us s, cs = UTF16LE \/ cs = UTF16BE -> serial (is_big cs) us s ->
  (cs = UTF16BE -> forall u t, us = u :: t -> u <> 65279 /\ u <> 65534) ->
  (forall r, bytes_decode s cs st <> Ok r) -> bytes_decode s cs st = Throw RuntimeError.
Proof.
  intros cs st us s CS S1 NB N. apply (decode16_throws cs st us s CS S1); auto. intros B. specialize (NB B). destruct us; cbn; eauto.
Qed.
Print Assumptions C65_otherwise_runtime_error.
(** Data of even length is a sequence of units; of odd length, the last byte is dropped, replaced or an error. *)
Theorem C65_even_data : forall big s, Forall is_byte s -> (length s mod 2 = 0)%nat -> exists us, serial big us s.
Proof. apply serial_exists. Qed.
Theorem C65_odd_data : forall cs s b, cs = UTF16LE \/ cs = UTF16BE -> (length s mod 2 = 0)%nat ->
  bytes_decode (s ++ [b]) cs Strict = Throw RuntimeError /\
  bytes_decode (s ++ [b]) cs Ignore = bytes_decode s cs Ignore /\
  bytes_decode (s ++ [b]) cs Replace = (let* d := bytes_decode s cs Replace in Ok (d ++ fffd)).
Proof. intros cs s b CS E. repeat split; rewrite (decode_odd cs _ s b CS E); reflexivity. Qed.
Print Assumptions C65_odd_data.
Theorem C65_round_trip : forall cs st st' cps s, cs = UTF16LE \/ cs = UTF16BE -> text8 cps s ->
  (cs = UTF16BE -> forall cp t, cps = cp :: t -> cp <> 65279 /\ cp <> 65534) ->
  exists r, string_encode s cs st = Ok r /\ bytes_decode r cs st' = Ok s.
Proof.
  intros cs st st' cps s CS T NB. assert (F : Forall is_byte s) by (eapply text8_bytes; eauto).
  pose proof (text8_encode _ _ T) as [Es SC].
  pose proof (text16_of cps SC) as T16. pose proof (text16_unit _ _ T16) as U.
  pose proof (serial_of (is_big cs) _ U) as S1. exists (flat_map (unit_bytes (is_big cs)) (flat_map units_of cps)). split.
  - apply (C65_encode_exact cs st s _ CS F). exists s, cps, (flat_map units_of cps). split; [apply C64_valid_unchanged; exists cps; exact T|]. auto.
  - assert (NB' : cs = UTF16BE -> forall u t, flat_map units_of cps = u :: t -> u <> 65279 /\ u <> 65534).
    { intros B u t E. specialize (NB B). destruct cps as [|cp cps]; [discriminate|]. specialize (NB cp cps eq_refl). cbn [flat_map] in E.
      inversion SC as [|? ? SCP _]; subst. unfold scalar in SCP. unfold units_of in E. destruct (Z.ltb_spec cp 65536); cbn [app] in E; apply cons_inj in E; destruct E as [<- _]; [exact NB|].
      Z.to_euclidean_division_equations; lia. }
    destruct (strategy_eq st') as [-> | NS].
    + apply (C65_decode_strict_exact cs _ _ s CS S1 NB'). eauto.
    + apply (C65_decode_exact cs st' _ _ s CS NS S1 NB'). exists cps. split; [|exact T].
      clear -T16. induction T16; econstructor; eauto.
Qed.
Print Assumptions C65_round_trip.
Example C65_nonvacuous : string_encode [97;240;159;152;128] UTF16BE Strict = Ok [0;97;216;61;222;0] /\ bytes_decode [0;97;216;61;222;0] UTF16BE Strict = Ok [97;240;159;152;128].
Proof. split; reflexivity. Qed.
(** A big-endian byte order mark makes the data be read as little-endian. *)
Theorem C65_byte_order_mark_refuted : bytes_decode [254;255;0;97] UTF16BE Strict = Ok [239;191;190;230;132;128].
Proof. reflexivity. Qed.
Theorem C65_round_trip_refuted : exists s r t, valid8 s /\ string_encode s UTF16BE Strict = Ok r /\ bytes_decode r UTF16BE Strict = Ok t /\ t <> s.
Proof.
  exists [239;187;191;97], [254;255;0;97], [239;191;190;230;132;128]. repeat split; try reflexivity; [|discriminate].
  exists [65279; 97]. apply (text8_of [65279; 97]). repeat constructor; lia.
Qed.
(** A surrogate at the very end is not repaired. *)
Theorem C65_repair_fails_refuted : bytes_decode [97;0;0;216] UTF16LE Replace = Throw RuntimeError.
Proof. reflexivity. Qed.

(** C66. Upper and lower case. [up] is the case mapping of the Unicode library, which maps characters to characters. *)
Theorem C66_valid : forall up st cps s, (forall cp, scalar cp -> scalar (up cp)) -> text8 cps s ->
  exists r, string_map_case up st s = Ok r /\ text8 (map up cps) r.
Proof.
  intros up st cps s U T. assert (F : Forall is_byte s) by (eapply text8_bytes; eauto). pose proof (text8_encode _ _ T) as [_ SC].
  assert (SC' : Forall scalar (map up cps)) by (apply Forall_map; eapply Forall_impl; [|exact SC]; auto).
  exists (flat_map utf8_encode (map up cps)). split; [|apply text8_of, SC']. unfold string_map_case.
  destruct (strategy_eq st) as [-> | NS].
  - destruct (map_case_strict up s F (length s) (le_n _)) as [(cps' & T' & E)|(V & _)].
    + rewrite E. rewrite (text8_fun _ _ _ T T'). reflexivity.
    + exfalso. apply V. exists cps. exact T.
  - destruct (map_case_scrubbed up st s U F NS (length s) (le_n _)) as (r & E & R). rewrite E. f_equal.
    apply (scrubbed_fun up (mark8 st) s F); auto. apply (scrubbed_valid up _ cps); auto using text8_of.
Qed.
Print Assumptions C66_valid.
Theorem C66_repaired : forall up st s r, (forall cp, scalar cp -> scalar (up cp)) -> Forall is_byte s -> st <> Strict ->
  (string_map_case up st s = Ok r <-> scrubbed up (match st with Replace => fffd | _ => [] end) s r).
Proof.
  intros up st s r U F NS. destruct (map_case_scrubbed up st s U F NS (length s) (le_n _)) as (r' & E & R). unfold string_map_case. rewrite E. split.
  - intros Q. replace r with r' by congruence. exact R.
  - intros R'. f_equal. exact (scrubbed_fun up _ s F _ _ R R').
Qed.
Print Assumptions C66_repaired.
Theorem C66_strict : forall up s, Forall is_byte s -> ~ valid8 s -> string_map_case up Strict s = Throw RuntimeError.
Proof.
  intros up s F V. destruct (map_case_strict up s F (length s) (le_n _)) as [(cps & T & _)|(_ & E)]; [exfalso; apply V; exists cps; exact T|exact E].
Qed.
Print Assumptions C66_strict.
(** The same for bytes in UTF-8 and UTF-16. *)
Theorem C66_bytes_utf8 : forall up st cps s, (forall cp, scalar cp -> scalar (up cp)) -> text8 cps s ->
  exists r, bytes_map_case up s UTF8 st = Ok r /\ text8 (map up cps) r.
Proof.
  intros up st cps s U T. destruct (C66_valid up st cps s U T) as (r & E & R). exists r. split; [|exact R].
  unfold bytes_map_case. rewrite decode8_id by (exists cps; exact T). cbn [bind]. rewrite E. cbn [bind]. rewrite C64_encode_is_decode. apply decode8_id. eexists; exact R.
Qed.
Print Assumptions C66_bytes_utf8.
Theorem C66_bytes_utf16 : forall up cs st cps us s, cs = UTF16LE \/ cs = UTF16BE -> (forall cp, scalar cp -> scalar (up cp)) -> text16 cps us -> serial (is_big cs) us s ->
  (cs = UTF16BE -> forall u t, us = u :: t -> u <> 65279 /\ u <> 65534) ->
  exists us' r, bytes_map_case up s cs st = Ok r /\ text16 (map up cps) us' /\ serial (is_big cs) us' r.
Proof.
  intros up cs st cps us s CS U T S1 NB. pose proof (text16_units _ _ T) as [_ SC].
  assert (D : bytes_decode s cs st = Ok (flat_map utf8_encode cps)).
  { destruct (strategy_eq st) as [-> | NS].
    - apply (C65_decode_strict_exact cs us s _ CS S1 NB). exists cps. auto using text8_of.
    - apply (C65_decode_exact cs st us s _ CS NS S1 NB). exists cps. split; [|auto using text8_of]. clear -T. induction T; econstructor; eauto. }
  destruct (C66_valid up st cps _ U (text8_of cps SC)) as (t & E & R).
  assert (SC' : Forall scalar (map up cps)) by (apply Forall_map; eapply Forall_impl; [|exact SC]; auto).
  pose proof (text16_of _ SC') as T16. exists (flat_map units_of (map up cps)), (flat_map (unit_bytes (is_big cs)) (flat_map units_of (map up cps))).
  assert (S2 : serial (is_big cs) (flat_map units_of (map up cps)) (flat_map (unit_bytes (is_big cs)) (flat_map units_of (map up cps)))) by (apply serial_of; eapply text16_unit; eauto).
  split; [|auto]. unfold bytes_map_case. rewrite D. cbn [bind]. rewrite E. cbn [bind]. apply (C65_encode_exact cs st t _ CS); [eapply text8_bytes; eauto|].
  exists t, (map up cps), (flat_map units_of (map up cps)). split; [apply decode8_id; eexists; exact R|]. auto.
Qed.
Print Assumptions C66_bytes_utf16.
Example C66_nonvacuous : string_map_case (fun cp => if (97 <=? cp) && (cp <=? 122) then cp - 32 else cp) Replace [97;98;255;195;164] = Ok [65;66;239;191;189;195;164].
Proof. reflexivity. Qed.
