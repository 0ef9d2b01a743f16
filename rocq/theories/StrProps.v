(** Properties C28-C31. *)
From Verif Require Import Base StrModel StrSpec StrProofs StrProofs2.

(** C28. For delimiters that cannot overlap themselves, among them all delimiters of one byte, joining what split returns
    gives back the string. In general (C28_split_exact) split returns the pieces between the successive occurrences of the
    delimiter, which joined give the string, but adds an empty piece if the string ends in the delimiter without ending in
    one of these occurrences (C28_split_join_refuted is such a case). *)
Theorem C28_split_join : forall s d, d <> [] -> unbordered d -> exists l, split s d = Ok l /\ join l d = s.
Proof. exact split_join. Qed.
Print Assumptions C28_split_join.

Theorem C28_split_exact : forall s d, d <> [] ->
  exists l, pieces d s l /\ (forall l', pieces d s l' -> l' = l) /\ join l d = s /\
    ((split s d = Ok l /\ ((exists a, s = a ++ d) -> last l [] = [])) \/
     (split s d = Ok (l ++ [[]]) /\ (exists a, s = a ++ d) /\ last l [] <> [])).
Proof.
  intros s d Hd. destruct (split_exact s d Hd) as (l & Hp & H). exists l. split; [exact Hp|].
  split; [intros l' H'; eapply pieces_unique; eauto|]. split; [|exact H].
  rewrite join_concat. destruct (pieces_join d s l Hp) as [(_ & E & _)|E]; [exact E|contradiction].
Qed.
Print Assumptions C28_split_exact.

(** The empty delimiter does not split. *)
Theorem C28_split_empty_delimiter : forall s, split s [] = Ok [s].
Proof. reflexivity. Qed.
Print Assumptions C28_split_empty_delimiter.

Theorem C28_split_pieces_have_no_delimiter : forall s d, d <> [] ->
  exists l, split s d = Ok l /\ l <> [] /\ Forall (fun x => ~ contains d x) l.
Proof.
  intros s d H. destruct (split_no_delim s d H) as (l & E & F). exists l. split; [exact E|]. split; [|exact F].
  intros ->. destruct d as [|x d]; [congruence|]. unfold split in E.
  destruct (length s <? length (x :: d)); [discriminate|]. cbn [split_loop] in E.
  destruct (find_sub s (x :: d)); [destruct (skipn _ _); [|destruct (split_loop _ _ _); try discriminate]|];
    cbn [bind] in E; destruct (bytes_eqb _ _); discriminate.
Qed.
Print Assumptions C28_split_pieces_have_no_delimiter.

(** Joining does not lose pieces: the converse direction for pieces without the delimiter's bytes. *)
Theorem C28_single_byte_delimiters_qualify : forall c, unbordered [c].
Proof. intros c k H. cbn in H. lia. Qed.
Print Assumptions C28_single_byte_delimiters_qualify.

Theorem C28_split_join_refuted : exists s d l, d <> [] /\ split s d = Ok l /\ join l d <> s.
Proof.
  exists [97;97;97]%Z, [97;97]%Z, [[];[97]%Z;[]]. split; [discriminate|]. split; [reflexivity|]. discriminate.
Qed.
Print Assumptions C28_split_join_refuted.

Example C28_nonvacuous : unbordered [44; 32]%Z /\ split [97;44;32;44;32;98]%Z [44;32]%Z = Ok [[97]%Z; []; [98]%Z].
Proof. split; [|reflexivity]. intros k H. cbn in H. replace k with 1 by lia. discriminate. Qed.

(** Splitting at white space gives the maximal runs of other characters, and these are unique. *)
Theorem C28_split_whitespace : forall s, exists l, split_ws s = Ok l /\ words s l /\ (forall l', words s l' -> l' = l).
Proof.
  intros s. destruct (split_ws_ok s) as (l & E & W). exists l. repeat split; auto. intros l' W'. eapply words_unique; eauto.
Qed.
Print Assumptions C28_split_whitespace.

(** White space: space, tab, form feed, vertical tab, newline, carriage return, and nothing else. *)
Theorem C28_whitespace : forall c, In c ws <-> (c = 32 \/ 9 <= c <= 13)%Z.
Proof. intros c. unfold ws. cbn [In]. lia. Qed.
Print Assumptions C28_whitespace.

(** C29 *)
Theorem C29_trim_is_exact : forall s cs,
  (exists w, s = w ++ ltrim s cs /\ all_in cs w /\ (forall x r, ltrim s cs = x :: r -> ~ In x cs)) /\
  (exists w, s = rtrim s cs ++ w /\ all_in cs w /\ (forall x r, rtrim s cs = r ++ [x] -> ~ In x cs)) /\
  (exists w1 w2, s = w1 ++ trim s cs ++ w2 /\ all_in cs w1 /\ all_in cs w2 /\
    (forall x r, trim s cs = x :: r -> ~ In x cs) /\ (forall x r, trim s cs = r ++ [x] -> ~ In x cs)).
Proof. intros s cs. split; [apply ltrim_spec|]. split; [apply rtrim_spec|apply trim_spec]. Qed.
Print Assumptions C29_trim_is_exact.

Theorem C29_split1_at_first : forall s d a b, split1 s d = (a, b) ->
  (s = a ++ d ++ b /\ (forall a' b', s = a' ++ d ++ b' -> length a <= length a')) \/ (~ contains d s /\ a = s /\ b = []).
Proof. intros s d a b E. pose proof (split1_ok s d) as H. rewrite E in H. exact H. Qed.
Print Assumptions C29_split1_at_first.

Theorem C29_rsplit1_at_last : forall s d a b, rsplit1 s d = (a, b) ->
  (s = a ++ d ++ b /\ (forall a' b', s = a' ++ d ++ b' -> length a' <= length a)) \/ (~ contains d s /\ a = [] /\ b = s).
Proof. intros s d a b E. pose proof (rsplit1_ok s d) as H. rewrite E in H. exact H. Qed.
Print Assumptions C29_rsplit1_at_last.

Theorem C29_split1_whitespace : forall s a b, split1_ws s = (a, b) ->
  (exists w, s = a ++ w ++ b /\ w <> [] /\ all_in ws w /\ none_in ws a /\ (forall x r, b = x :: r -> ~ In x ws)) \/
  (none_in ws s /\ a = s /\ b = []).
Proof. intros s a b E. pose proof (split1_ws_ok s) as H. rewrite E in H. exact H. Qed.
Print Assumptions C29_split1_whitespace.

Theorem C29_rsplit1_whitespace : forall s a b, rsplit1_ws s = (a, b) ->
  (exists x, s = a ++ x :: b /\ In x ws /\ none_in ws b) \/ (none_in ws s /\ a = [] /\ b = s).
Proof. intros s a b E. pose proof (rsplit1_ws_ok s) as H. rewrite E in H. exact H. Qed.
Print Assumptions C29_rsplit1_whitespace.

Theorem C29_replace_all_leftmost : forall s o n, o <> [] ->
  exists r, replace s o n = Ok r /\ replaced o n s r /\ (forall r', replaced o n s r' -> r' = r).
Proof.
  intros s o n H. destruct (replace_ok s o n H) as (r & E & R). exists r. repeat split; auto.
  intros r' R'. eapply replaced_unique; eauto.
Qed.
Print Assumptions C29_replace_all_leftmost.

Theorem C29_replace_empty_pattern : forall s n, replace s [] n = Ok s.
Proof. reflexivity. Qed.
Print Assumptions C29_replace_empty_pattern.

Theorem C29_starts_and_ends_with : forall s p,
  (starts_with s p = true <-> exists r, s = p ++ r) /\ (ends_with s p = true <-> exists r, s = r ++ p).
Proof. intros. split; [apply starts_with_ok|apply ends_with_ok]. Qed.
Print Assumptions C29_starts_and_ends_with.

Example C29_nonvacuous :
  trim [32;9;97;32;98;10]%Z ws = [97;32;98]%Z /\ replace [97;97;97;98]%Z [97;97]%Z [120]%Z = Ok [120;97;98]%Z /\
  split1 [97;58;98;58;99]%Z [58]%Z = ([97],[98;58;99])%Z /\ rsplit1 [97;58;98;58;99]%Z [58]%Z = ([97;58;98],[99])%Z.
Proof. repeat split. Qed.

(** C30. The runtime's un-escaping inverts escaping in the styles without UseOctal, provided backslashes are escaped or
    there are none. In the style UseOctal it does not (C30_octal_roundtrip_refuted), but no information is lost either. If
    backslashes are not escaped and there are some, different strings can be rendered alike (C30_no_escape_backslash_refuted). *)
Theorem C30_escape_roundtrip : forall st s, use_octal st = false -> (no_escape_backslash st = false \/ ~ In 92%Z s) ->
  Forall is_byte s -> expand_escapes (escape_bytes st s) = Ok s.
Proof.
  intros st s H1 [H2|H2] HF; [apply expand_escape_ok; assumption|].
  rewrite escape_without_backslash by exact H2. apply expand_escape_ok; auto.
Qed.
Print Assumptions C30_escape_roundtrip.

(** Two different byte strings never have the same rendering, in any style, if backslashes are escaped or there are none. *)
Theorem C30_escape_injective : forall st s1 s2, (no_escape_backslash st = false \/ ~ In 92%Z (s1 ++ s2)) ->
  Forall is_byte s1 -> Forall is_byte s2 -> escape_bytes st s1 = escape_bytes st s2 -> s1 = s2.
Proof.
  intros st s1 s2 [H|H] F1 F2 E; [eapply escape_inj; eauto|].
  rewrite (escape_without_backslash st s1), (escape_without_backslash st s2) in E by (intros X; apply H; apply in_or_app; auto).
  eapply escape_inj; [|exact F1|exact F2|exact E]. reflexivity.
Qed.
Print Assumptions C30_escape_injective.

Theorem C30_escape_printable : forall st s, Forall is_byte s -> Forall (fun x => (32 <= x < 127)%Z) (escape_bytes st s).
Proof. exact escape_printable. Qed.
Print Assumptions C30_escape_printable.

(** Byte 1 as octal is rendered \001, which is read back as NUL, '0', '1'. *)
Theorem C30_octal_roundtrip_refuted : exists s st, Forall is_byte s /\ use_octal st = true /\
  exists s', expand_escapes (escape_bytes st s) = Ok s' /\ s' <> s.
Proof.
  exists [1]%Z, (mkStyle false true false). split; [repeat constructor; unfold is_byte; lia|]. split; [reflexivity|].
  exists [0;48;49]%Z. split; [vm_compute; reflexivity|discriminate].
Qed.
Print Assumptions C30_octal_roundtrip_refuted.

(** Without escaping the backslash, the style used for printing, two different byte strings are rendered alike. *)
Theorem C30_no_escape_backslash_refuted : exists s1 s2 st, Forall is_byte s1 /\ Forall is_byte s2 /\ s1 <> s2 /\
  no_escape_backslash st = true /\ escape_bytes st s1 = escape_bytes st s2.
Proof.
  exists [1]%Z, [92;120;48;49]%Z, (mkStyle false false true).
  split; [repeat constructor; unfold is_byte; lia|]. split; [repeat constructor; unfold is_byte; lia|].
  split; [discriminate|]. split; reflexivity.
Qed.
Print Assumptions C30_no_escape_backslash_refuted.

Example C30_nonvacuous : escape_bytes (mkStyle true false false) [97;0;34;92;255]%Z =
  [97; 92;120;48;48; 92;34; 92;92; 92;120;102;102]%Z.
Proof. reflexivity. Qed.

(** C31 *)
Theorem C31_hexstring_decodes : forall s, Forall is_byte s -> read_hex (bytes_to_hexstring s) = Some s.
Proof. exact read_hex_ok. Qed.
Print Assumptions C31_hexstring_decodes.

Theorem C31_hexstring_two_digits_per_byte : forall s, Forall is_byte s ->
  length (bytes_to_hexstring s) = 2 * length s /\ Forall (fun x => hex_value x <> None) (bytes_to_hexstring s).
Proof. intros s H. split; [apply hex_length|apply hex_digits; exact H]. Qed.
Print Assumptions C31_hexstring_two_digits_per_byte.

Theorem C31_hexstring_injective : forall s1 s2, Forall is_byte s1 -> Forall is_byte s2 ->
  bytes_to_hexstring s1 = bytes_to_hexstring s2 -> s1 = s2.
Proof. intros s1 s2 H1 H2 E. pose proof (read_hex_ok s1 H1). pose proof (read_hex_ok s2 H2). congruence. Qed.
Print Assumptions C31_hexstring_injective.

Theorem C31_mac_decodes : forall s, Forall is_byte s -> read_mac (bytes_to_mac s) = Some s.
Proof. exact read_mac_ok. Qed.
Print Assumptions C31_mac_decodes.

Theorem C31_mac_length : forall s, s <> [] -> length (bytes_to_mac s) = 3 * length s - 1.
Proof. exact mac_length. Qed.
Print Assumptions C31_mac_length.

Theorem C31_mac_injective : forall s1 s2, Forall is_byte s1 -> Forall is_byte s2 -> bytes_to_mac s1 = bytes_to_mac s2 -> s1 = s2.
Proof. intros s1 s2 H1 H2 E. pose proof (read_mac_ok s1 H1). pose proof (read_mac_ok s2 H2). congruence. Qed.
Print Assumptions C31_mac_injective.

Example C31_nonvacuous : Forall is_byte [0;171;255]%Z /\ bytes_to_hexstring [0;171;255]%Z = [48;48;65;66;70;70]%Z /\
  bytes_to_mac [0;171;255]%Z = [48;48;58;65;66;58;70;70]%Z.
Proof. split; [repeat constructor; unfold is_byte; lia|]. split; reflexivity. Qed.
