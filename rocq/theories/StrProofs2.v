(** Proofs for C30 (escaping) and C31 (hex rendering). *)
From Verif Require Import Base StrModel StrSpec StrProofs.

Lemma byte_cases (P : byte -> bool) : forallb P (map Z.of_nat (seq 0 256)) = true -> forall c, is_byte c -> P c = true.
Proof.
  intros H c Hc. rewrite forallb_forall in H. apply H. apply in_map_iff. exists (Z.to_nat c). unfold is_byte in Hc.
  split; [lia|]. apply in_seq. lia.
Qed.

Definition hex_ok (c : byte) : bool :=
  match atoi_char [hexdigit (c / 16); hexdigit (c mod 16)] with
  | Ok (Some v, k) => Z.eqb v c && Z.eqb k 2
  | _ => false
  end.
Lemma hex_ok_all c : is_byte c -> atoi_char [hexdigit (c / 16)%Z; hexdigit (c mod 16)%Z] = Ok (Some c, 2%Z).
Proof.
  intros Hc. assert (H : hex_ok c = true) by (apply byte_cases; [vm_compute; reflexivity|exact Hc]).
  unfold hex_ok in H. destruct (atoi_char _) as [[[v|] k]| |]; try discriminate.
  apply andb_true_iff in H. destruct H as [H1 H2]. apply Z.eqb_eq in H1, H2. subst. reflexivity.
Qed.

Lemma expand_escape st s : use_octal st = false -> no_escape_backslash st = false -> Forall is_byte s ->
  forall fuel, length (escape_bytes st s) <= fuel -> expand_loop fuel (escape_bytes st s) = Ok s.
Proof.
  intros Ho Hb. induction s as [|c s IH]; intros HF fuel Hf.
  - destruct fuel; reflexivity.
  - inversion HF as [|? ? Hc HF']; subst. specialize (IH HF'). unfold escape_bytes in *. cbn [flat_map] in *.
    set (tl := flat_map (escape_byte st) s) in *. clearbody tl.
    rewrite app_length in Hf. unfold escape_byte in *. rewrite Ho, Hb in *. cbn [negb] in *. rewrite andb_true_r in *.
    destruct (Z.eqb_spec c 92) as [->|N1].
    { cbn [length app] in *. destruct fuel as [|f]; [lia|]. cbn [expand_loop]. cbn [Z.eqb Pos.eqb negb].
      rewrite IH by lia. reflexivity. }
    destruct (Z.eqb_spec c 34) as [->|N2].
    { destruct (escape_quotes st) eqn:Eq; cbn [andb] in *.
      - cbn [length app] in *. destruct fuel as [|f]; [lia|]. cbn [expand_loop]. cbn [Z.eqb Pos.eqb negb].
        rewrite IH by lia. reflexivity.
      - change (is_print 34%Z) with true in *. cbn [length app] in *. destruct fuel as [|f]; [lia|]. cbn [expand_loop].
        cbn [Z.eqb Pos.eqb negb]. rewrite IH by lia. reflexivity. }
    cbn [andb] in *. destruct (is_print c) eqn:Ep.
    { cbn [length app] in *. destruct fuel as [|f]; [lia|]. cbn [expand_loop].
      apply Z.eqb_neq in N1. rewrite N1. cbn [negb]. rewrite IH by lia. reflexivity. }
    cbn [length app] in *. destruct fuel as [|f]; [lia|]. cbn [expand_loop]. cbn [Z.eqb Pos.eqb negb].
    cbn [length Nat.min firstn skipn]. 
    cbn [firstn skipn]. rewrite hex_ok_all by exact Hc. cbn [bind snd fst]. cbn [Z.of_nat Pos.of_succ_nat Pos.succ Z.eqb Pos.eqb negb].
    rewrite IH by lia. reflexivity.
Qed.

Lemma expand_escape_ok st s : use_octal st = false -> no_escape_backslash st = false -> Forall is_byte s ->
  expand_escapes (escape_bytes st s) = Ok s.
Proof. intros. apply expand_escape; auto. Qed.

Definition print_ok (st : bstyle) (c : byte) : bool := forallb is_print (escape_byte st c).
Lemma escape_printable st s : Forall is_byte s -> Forall (fun x => (32 <= x < 127)%Z) (escape_bytes st s).
Proof.
  intros HF. unfold escape_bytes. apply Forall_flat_map. eapply Forall_impl; [|exact HF]. intros c Hc.
  assert (H : print_ok st c = true).
  { apply byte_cases; [|exact Hc]. destruct st as [[] [] []]; vm_compute; reflexivity. }
  unfold print_ok in H. rewrite forallb_forall in H. apply Forall_forall. intros x Hx. specialize (H x Hx). unfold is_print in H. lia.
Qed.

Definition rd_ok (c : byte) : bool :=
  match hex_value (hex_upper (Z.shiftr (Z.land c 240) 4)), hex_value (hex_upper (Z.land c 15)) with
  | Some x, Some y => Z.eqb (x * 16 + y) c
  | _, _ => false
  end.
Lemma rd_ok_all c : is_byte c -> exists x y, hex_value (hex_upper (Z.shiftr (Z.land c 240) 4)) = Some x /\
  hex_value (hex_upper (Z.land c 15)) = Some y /\ (x * 16 + y = c)%Z.
Proof.
  intros Hc. assert (H : rd_ok c = true) by (apply byte_cases; [vm_compute; reflexivity|exact Hc]). unfold rd_ok in H.
  destruct (hex_value _) as [x|]; [|discriminate]. destruct (hex_value _) as [y|]; [|discriminate].
  exists x, y. apply Z.eqb_eq in H. auto.
Qed.

Lemma read_hex_ok s : Forall is_byte s -> read_hex (bytes_to_hexstring s) = Some s.
Proof.
  induction s as [|c s IH]; intros HF; [reflexivity|]. inversion HF as [|? ? Hc HF']; subst.
  unfold bytes_to_hexstring in *. cbn [flat_map byte_to_hex app read_hex]. destruct (rd_ok_all c Hc) as (x & y & -> & -> & E).
  rewrite (IH HF'). rewrite E. reflexivity.
Qed.

Lemma read_mac_ok s : Forall is_byte s -> read_mac (bytes_to_mac s) = Some s.
Proof.
  induction s as [|c s IH]; intros HF; [reflexivity|]. inversion HF as [|? ? Hc HF']; subst.
  destruct (rd_ok_all c Hc) as (x & y & Ex & Ey & E). destruct s as [|c2 s].
  - cbn [bytes_to_mac byte_to_hex read_mac]. rewrite Ex, Ey, E. reflexivity.
  - change (bytes_to_mac (c :: c2 :: s)) with (byte_to_hex c ++ [58]%Z ++ bytes_to_mac (c2 :: s)).
    cbn [byte_to_hex app]. remember (bytes_to_mac (c2 :: s)) as m. cbn [read_mac]. rewrite Ex, Ey, (IH HF'), E. reflexivity.
Qed.

Lemma hex_length s : length (bytes_to_hexstring s) = 2 * length s.
Proof. induction s as [|c s IH]; [reflexivity|]. unfold bytes_to_hexstring in *. cbn [flat_map byte_to_hex app length]. lia. Qed.

Definition hexdig_ok (c : byte) : bool := forallb (fun x => match hex_value x with Some _ => true | None => false end) (byte_to_hex c).
Lemma hex_digits s : Forall is_byte s -> Forall (fun x => hex_value x <> None) (bytes_to_hexstring s).
Proof.
  intros HF. apply Forall_flat_map. eapply Forall_impl; [|exact HF]. intros c Hc.
  assert (H : hexdig_ok c = true) by (apply byte_cases; [vm_compute; reflexivity|exact Hc]).
  unfold hexdig_ok in H. rewrite forallb_forall in H. apply Forall_forall. intros x Hx. specialize (H x Hx).
  destruct (hex_value x); [discriminate|discriminate H].
Qed.

Lemma mac_cons c c2 s : bytes_to_mac (c :: c2 :: s) = byte_to_hex c ++ [58]%Z ++ bytes_to_mac (c2 :: s).
Proof. reflexivity. Qed.
Lemma mac_length s : s <> [] -> length (bytes_to_mac s) = 3 * length s - 1.
Proof.
  induction s as [|c s IH]; intros H; [congruence|]. destruct s as [|c2 s]; [reflexivity|].
  rewrite mac_cons. assert (H2 : c2 :: s <> []) by discriminate. specialize (IH H2). clear H H2.
  remember (bytes_to_mac (c2 :: s)) as m. clear Heqm. rewrite !app_length. unfold bytes, byte in *. cbn [byte_to_hex length] in *. lia.
Qed.

(** *** Escaping in all styles *)
Lemma escape_without_backslash st s : ~ In 92%Z s ->
  escape_bytes st s = escape_bytes (mkStyle (escape_quotes st) (use_octal st) false) s.
Proof.
  induction s as [|c s IH]; intros H; [reflexivity|]. unfold escape_bytes in *. cbn [flat_map].
  rewrite IH by (intros X; apply H; right; exact X). f_equal. unfold escape_byte. cbn [escape_quotes use_octal no_escape_backslash].
  assert (E : Z.eqb c 92 = false) by (apply Z.eqb_neq; intros ->; apply H; left; reflexivity). rewrite E. reflexivity.
Qed.

Lemma hexdigit_inj a b : (0 <= a < 16 -> 0 <= b < 16 -> hexdigit a = hexdigit b -> a = b)%Z.
Proof. unfold hexdigit. intros. destruct (Z.ltb_spec a 10), (Z.ltb_spec b 10); lia. Qed.

Lemma cons_inv {A} (x y : A) l l' : x :: l = y :: l' -> x = y /\ l = l'.
Proof. intros H. injection H; auto. Qed.

Lemma escape_step st c1 c2 t1 t2 : no_escape_backslash st = false -> is_byte c1 -> is_byte c2 ->
  escape_byte st c1 ++ t1 = escape_byte st c2 ++ t2 -> c1 = c2 /\ t1 = t2.
Proof.
  intros Hb B1 B2. unfold escape_byte, is_byte, is_print in *. rewrite Hb. cbn [negb].
  destruct (Z.eqb_spec c1 92) as [N1|N1], (Z.eqb_spec c2 92) as [N2|N2]; cbn [andb];
  destruct (Z.eqb_spec c1 34) as [Q1|Q1], (Z.eqb_spec c2 34) as [Q2|Q2]; cbn [andb]; try lia;
  destruct (escape_quotes st); cbn [andb];
  destruct (Z.leb_spec 32 c1), (Z.ltb_spec c1 127), (Z.leb_spec 32 c2), (Z.ltb_spec c2 127); cbn [andb]; try lia;
  destruct (use_octal st); cbn [app]; intros E;
  repeat match type of E with _ :: _ = _ :: _ => apply cons_inv in E; let H := fresh "X" in destruct E as [H E] end;
  try (exfalso; clear E; Z.to_euclidean_division_equations; lia).
  all: split; [|exact E].
  all: try (clear E; lia).
  all: try match goal with
    | H1 : hexdigit (_ mod 16) = hexdigit _, H2 : hexdigit (_ / 16) = hexdigit _ |- _ =>
        apply hexdigit_inj in H1; [|apply Z.mod_pos_bound; lia|apply Z.mod_pos_bound; lia];
        apply hexdigit_inj in H2; [|split; [apply Z.div_pos; lia|apply Z.div_lt_upper_bound; lia]..]
    end.
  all: clear E; Z.to_euclidean_division_equations; lia.
Qed.

Lemma escape_nonnil st c : escape_byte st c <> [].
Proof. unfold escape_byte. repeat (destruct (_ && _)); try discriminate. destruct (is_print c); [discriminate|]. destruct (use_octal st); discriminate. Qed.

Lemma escape_inj st s1 s2 : no_escape_backslash st = false -> Forall is_byte s1 -> Forall is_byte s2 ->
  escape_bytes st s1 = escape_bytes st s2 -> s1 = s2.
Proof.
  intros Hb H1. revert s2. unfold escape_bytes. induction H1 as [|c1 s1 B1 F1 IH]; intros s2 H2 E; destruct H2 as [|c2 s2 B2 F2]; cbn [flat_map] in E.
  - reflexivity.
  - symmetry in E. apply app_eq_nil in E. destruct E as [E _]. destruct (escape_nonnil _ _ E).
  - apply app_eq_nil in E. destruct E as [E _]. destruct (escape_nonnil _ _ E).
  - apply escape_step in E; auto. destruct E as [-> E]. f_equal. apply IH; assumption.
Qed.
