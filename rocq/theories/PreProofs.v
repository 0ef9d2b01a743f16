(** Proofs for C78. *)
From Verif Require Import Base StrModel StrSpec StrProofs BytesModel BytesSpec BytesProofs PreModel PreSpec.
Open Scope Z_scope.

Lemma digits_plain s v : digits 10 s v -> Forall is_byte s /\ s <> [].
Proof.
  assert (D : forall c d, digit_value c = Some d -> d < 10 -> is_byte c).
  { intros c d H1 H2. unfold digit_value in H1. unfold is_byte.
    destruct ((48 <=? c) && (c <=? 57)) eqn:E1; [lia|]. destruct ((97 <=? c) && (c <=? 122)) eqn:E2; [injection H1 as <-; lia|].
    destruct ((65 <=? c) && (c <=? 90)) eqn:E3; [injection H1 as <-; lia|discriminate]. }
  induction 1 as [c d H1 H2|s c v d H [IH1 IH2] H1 H2].
  - split; [|discriminate]. constructor; eauto.
  - split; [|destruct s; discriminate]. apply Forall_app. split; eauto.
Qed.
Lemma numeral_bytes s v : numeral 10 s v -> Forall is_byte s /\ magnitude s <> [].
Proof.
  intros H. inversion H as [s' u D|s' u D|s' u D]; subst; destruct (digits_plain _ _ D) as [F N]; split; auto.
  - destruct s as [|c s]; [congruence|]. destruct (digits_head _ _ _ D) as (c' & r & E & Hc). injection E as <- <-.
    apply sign_not_digit in Hc. destruct Hc as [N1 N2]. unfold magnitude. apply Z.eqb_neq in N1, N2. rewrite N1, N2. discriminate.
  - constructor; [unfold is_byte; lia|exact F].
  - constructor; [unfold is_byte; lia|exact F].
Qed.
Lemma plain10 (s : bytes) : Forall (plain_char 10) s.
Proof. apply Forall_forall. intros x _. left. lia. Qed.

Lemma atoi_int_raw s : s <> [] -> blen s <= 255 ->
  match dval 10 0 (magnitude s) with
  | Some v => if v <=? 2 ^ 31 then
                atoi_int s = Ok (Some (cast_s32 (if is_neg s then (0 - v) mod 2 ^ 64 else v)), blen s)
              else atoi_int s = Throw OutOfRange
  | None => atoi_int s = Throw OutOfRange \/ exists v k, atoi_int s = Ok (v, k) /\ k <> blen s
  end.
Proof.
  intros Hs HL. unfold atoi_int, atoi_n. cbn [Z.ltb Z.compare Pos.compare Pos.compare_cont orb].
  destruct s as [|c s]; [congruence|]. cbn [is_neg].
  set (sg := if c =? 45 then 1%nat else if c =? 43 then 1%nat else 0%nat).
  assert (Em : skipn sg (c :: s) = magnitude (c :: s)).
  { unfold sg, magnitude. destruct (c =? 45), (c =? 43); reflexivity. }
  rewrite Em. pose proof (digits_loop_ok (2 ^ 31) 10 (magnitude (c :: s)) ltac:(lia) ltac:(lia) 0 ltac:(lia)) as D.
  assert (El : (sg + length (magnitude (c :: s)) = length (c :: s))%nat).
  { unfold sg, magnitude. destruct (c =? 45), (c =? 43); cbn; lia. }
  set (m := magnitude (c :: s)) in *. destruct (dval 10 0 m) as [v|].
  - destruct (v <=? 2 ^ 31); rewrite D; [|reflexivity]. cbn [bind fst snd]. rewrite El. cbn [length Nat.eqb].
    f_equal. f_equal. unfold blen in *. cbn [length] in *. apply Z.mod_small. lia.
  - destruct D as [->|(v & k & -> & Hk)]; [left; reflexivity|right]. cbn [bind fst snd].
    destruct (Nat.eqb_spec (sg + k) 0).
    + eexists _, _. split; [reflexivity|]. unfold blen. cbn [length]. lia.
    + eexists _, _. split; [reflexivity|]. unfold blen in *. cbn [length] in *. rewrite Z.mod_small by lia. lia.
Qed.

Lemma cast32 (ng : bool) u : 0 <= u <= 2 ^ 31 -> (ng = true \/ u < 2 ^ 31) ->
  cast_s32 (if ng then (0 - u) mod 2 ^ 64 else u) = if ng then - u else u.
Proof.
  intros H1 H2. unfold cast_s32. destruct ng.
  - replace (((0 - u) mod 2 ^ 64) mod 2 ^ 32) with ((- u) mod 2 ^ 32).
    2:{ change (2 ^ 64) with (2 ^ 32 * 2 ^ 32). rewrite Z.rem_mul_r by lia. rewrite <- Zplus_mod_idemp_r. rewrite (Z.mul_comm (2 ^ 32)).
        rewrite Z.mod_mul by lia. rewrite Z.add_0_r. rewrite Z.mod_mod by lia. f_equal; lia. }
    destruct (Z.eq_dec u 0) as [->|]; [reflexivity|].
    assert (E : (- u) mod 2 ^ 32 = 2 ^ 32 - u) by (symmetry; apply Z.mod_unique with (q := -1); lia).
    rewrite E. destruct (Z.ltb_spec (2 ^ 32 - u) (2 ^ 31)); lia.
  - destruct H2 as [H2|H2]; [discriminate|]. rewrite Z.mod_small by lia. destruct (Z.ltb_spec u (2 ^ 31)); lia.
Qed.

(** A value in range is read. *)
Lemma atoi_int_ok w v : numeral 10 w v -> - 2 ^ 31 <= v < 2 ^ 31 -> (length w <= 255)%nat -> atoi_int w = Ok (Some v, Z.of_nat (length w)).
Proof.
  intros N R L. destruct (numeral_bytes _ _ N) as [F M]. assert (Hs : w <> []) by (intros ->; apply M; reflexivity).
  pose proof (atoi_int_raw w Hs ltac:(unfold blen; lia)) as A.
  apply (numeral_iff 10 w v ltac:(lia) F (plain10 w) M) in N. destruct N as (u & E & ->). rewrite E in A.
  pose proof (dval_mono 10 0 _ u ltac:(lia) ltac:(lia) E) as Hu.
  destruct (Z.leb_spec u (2 ^ 31)) as [U|U]; [|destruct (is_neg w); lia].
  rewrite A. rewrite cast32; [reflexivity|lia|]. destruct (is_neg w); [auto|right; lia].
Qed.
(** Nothing else is read completely, for plain values. *)
Lemma atoi_int_conv w v : w <> [] -> plain_value w -> atoi_int w = Ok (v, Z.of_nat (length w)) ->
  exists z, v = Some z /\ numeral 10 w z /\ - 2 ^ 31 <= z < 2 ^ 31.
Proof.
  intros Hs (F & N1 & N2 & N3 & L) E. pose proof (atoi_int_raw w Hs ltac:(unfold blen; lia)) as A.
  assert (M : magnitude w <> []).
  { destruct w as [|c w]; [congruence|]. unfold magnitude. destruct (Z.eqb_spec c 45) as [->|]; cbn [orb]; [intros ->; apply N2; reflexivity|].
    destruct (Z.eqb_spec c 43) as [->|]; cbn [orb]; [intros ->; apply N1; reflexivity|discriminate]. }
  destruct (dval 10 0 (magnitude w)) as [u|] eqn:D.
  - pose proof (dval_mono 10 0 _ u ltac:(lia) ltac:(lia) D) as Hu.
    assert (NI : numeral 10 w (if is_neg w then - u else u)) by (apply (numeral_iff 10 w _ ltac:(lia) F (plain10 w) M); eauto).
    destruct (Z.leb_spec u (2 ^ 31)) as [U|U]; [|rewrite A in E; discriminate].
    assert (U2 : is_neg w = true \/ u < 2 ^ 31).
    { destruct (is_neg w) eqn:En; [auto|right]. destruct (Z.eq_dec u (2 ^ 31)) as [->|]; [contradiction|lia]. }
    rewrite A in E. rewrite cast32 in E; [|lia|exact U2]. eexists. split; [|split; [exact NI|destruct (is_neg w); lia]]. congruence.
  - destruct A as [A|(v' & k & A & Hk)]; rewrite A in E; [discriminate|]. exfalso. apply Hk. unfold blen. congruence.
Qed.

Lemma find_constant_spec cs id v : id_value cs id v <-> v = match find_constant cs id with Some x => x | None => 0 end.
Proof.
  unfold id_value. induction cs as [|[k x] cs IH]; cbn [find find_constant]; [tauto|]. cbn [fst].
  destruct (list_eq_dec Z.eq_dec k id) as [->|N].
  - rewrite (proj2 (bytes_eqb_spec id id) eq_refl). tauto.
  - destruct (bytes_eqb k id) eqn:E; [apply bytes_eqb_spec in E; contradiction|exact IH].
Qed.

Lemma compare_op_spec op rel a b : operator op rel -> exists r, compare_op op a b = Some r /\ (r = true <-> rel a b).
Proof.
  intros H. destruct H; eexists; (split; [reflexivity|]).
  - destruct (Z.eqb_spec a b); intuition congruence.
  - destruct (Z.eqb_spec a b); cbn; intuition congruence.
  - destruct (Z.ltb_spec a b); intuition (try lia; try congruence).
  - destruct (Z.leb_spec a b); intuition (try lia; try congruence).
  - destruct (Z.ltb_spec b a); intuition (try lia; try congruence).
  - destruct (Z.leb_spec b a); intuition (try lia; try congruence).
Qed.
Lemma compare_op_conv op a b r : compare_op op a b = Some r -> exists rel, operator op rel /\ (r = true <-> rel a b).
Proof.
  unfold compare_op. intros H.
  destruct (bytes_eqb op [61; 61]) eqn:E1; [apply bytes_eqb_spec in E1; subst op|
  destruct (bytes_eqb op [33; 61]) eqn:E2; [apply bytes_eqb_spec in E2; subst op|
  destruct (bytes_eqb op [60]) eqn:E3; [apply bytes_eqb_spec in E3; subst op|
  destruct (bytes_eqb op [60; 61]) eqn:E4; [apply bytes_eqb_spec in E4; subst op|
  destruct (bytes_eqb op [62]) eqn:E5; [apply bytes_eqb_spec in E5; subst op|
  destruct (bytes_eqb op [62; 61]) eqn:E6; [apply bytes_eqb_spec in E6; subst op|]]]]]];
  [..|discriminate]; injection H as <-; eexists; (split; [constructor|]); cbv beta.
  - destruct (Z.eqb_spec a b); intuition congruence.
  - destruct (Z.eqb_spec a b); cbn; intuition congruence.
  - destruct (Z.ltb_spec a b); intuition (try lia; try congruence).
  - destruct (Z.leb_spec a b); intuition (try lia; try congruence).
  - destruct (Z.ltb_spec b a); intuition (try lia; try congruence).
  - destruct (Z.leb_spec b a); intuition (try lia; try congruence).
Qed.

(** The part of _parseIf behind the "!". *)
Definition parse_cmp (cs : constants) (negate : bool) (m : list bytes) : res (option bool) :=
  let finish (id op : bytes) (want : Z) :=
    let have := match find_constant cs id with Some v => v | None => 0 end in
    Ok (match compare_op op have want with Some r => Some (if negate then negb r else r) | None => None end) in
  match m with
  | [id] => finish id [33; 61] 0
  | [id; op; value] =>
      let* r := atoi_int value in
      if negb (snd r =? Z.of_nat (length value)) then Ok None
      else finish id op (match fst r with Some v => v | None => 0 end)
  | _ => Ok None
  end.
Lemma parse_if_eq cs e : parse_if cs e = let* m := split_ws e in
  match m with w :: m' => if bytes_eqb w BANG then parse_cmp cs true m' else parse_cmp cs false m | [] => parse_cmp cs false m end.
Proof. unfold parse_if. destruct (split_ws e) as [[|w m]| |]; cbn [bind]; [reflexivity| |reflexivity|reflexivity]. destruct (bytes_eqb w BANG); reflexivity. Qed.

Lemma bool_eq_iff (a b : bool) (P : Prop) : (a = true <-> P) -> (b = true <-> P) -> a = b.
Proof. destruct a, b; intuition congruence. Qed.

Lemma parse_cmp_ok cs ng m b : comparison cs m b -> parse_cmp cs ng m = Ok (Some (if ng then negb b else b)).
Proof.
  intros H. destruct H as [id op value rel have want b Hi Ho Hn R L Hb|id have b Hi Hb].
  - unfold parse_cmp. rewrite (atoi_int_ok _ _ Hn R L). cbn [bind fst snd]. rewrite Z.eqb_refl. cbn [negb].
    apply find_constant_spec in Hi. rewrite <- Hi. destruct (compare_op_spec op rel have want Ho) as (r & -> & Hr).
    rewrite (bool_eq_iff r b _ Hr Hb). reflexivity.
  - unfold parse_cmp. apply find_constant_spec in Hi. rewrite <- Hi. destruct (compare_op_spec _ _ have 0 op_ne) as (r & -> & Hr).
    rewrite (bool_eq_iff r b _ Hr Hb). reflexivity.
Qed.
Lemma parse_cmp_conv cs ng m r : (forall w, In w m -> plain_value w /\ w <> []) -> parse_cmp cs ng m = Ok (Some r) ->
  exists b, comparison cs m b /\ r = if ng then negb b else b.
Proof.
  intros P H. destruct m as [|id [|op [|value [|]]]]; cbn [parse_cmp] in H; try discriminate.
  - destruct (compare_op [33; 61] _ 0) as [b|] eqn:E; [|discriminate]. injection H as <-. exists b. split; [|reflexivity].
    apply compare_op_conv in E. destruct E as (rel & Ho & Hb). inversion Ho; subst. econstructor; [apply find_constant_spec; reflexivity|exact Hb].
  - unfold parse_cmp in H. destruct (atoi_int value) as [[v k]| |] eqn:A; cbn [bind fst snd] in H; try discriminate.
    destruct (Z.eqb_spec k (Z.of_nat (length value))) as [->|]; cbn [negb] in H; [|discriminate].
    destruct (P value) as [P1 P2]; [simpl; auto|]. destruct (atoi_int_conv _ _ P2 P1 A) as (z & -> & Hn & R).
    destruct (compare_op op _ z) as [b|] eqn:E; [|discriminate]. injection H as <-. exists b. split; [|reflexivity].
    apply compare_op_conv in E. destruct E as (rel & Ho & Hb). econstructor; eauto; [apply find_constant_spec; reflexivity|]. apply P1.
Qed.

Lemma split_ws_words e l : split_ws e = Ok l <-> words e l.
Proof.
  destruct (split_ws_ok e) as (l' & E & W). rewrite E. split.
  - intros H. injection H as <-. exact W.
  - intros H. f_equal. eapply words_unique; eauto.
Qed.
Lemma words_nonempty e l : words e l -> forall w, In w l -> w <> [].
Proof. induction 1; intros w' Hw; [destruct Hw|]. destruct Hw as [<- | Hw]; auto. Qed.

Lemma parse_if_ok cs e b : condition cs e b -> parse_if cs e = Ok (Some b).
Proof.
  intros H. rewrite parse_if_eq. destruct H as [l b W Hd C|l b W C]; apply split_ws_words in W; rewrite W; cbn [bind].
  - destruct l as [|w l]; [apply parse_cmp_ok with (ng := false); exact C|].
    destruct (bytes_eqb w BANG) eqn:E; [apply bytes_eqb_spec in E; subst; exfalso; apply Hd; reflexivity|].
    apply parse_cmp_ok with (ng := false). exact C.
  - rewrite (proj2 (bytes_eqb_spec BANG BANG) eq_refl). apply parse_cmp_ok with (ng := true). exact C.
Qed.
Lemma parse_if_conv cs e b : plain_expr e -> parse_if cs e = Ok (Some b) -> condition cs e b.
Proof.
  intros P H. rewrite parse_if_eq in H. destruct (split_ws_ok e) as (l & E & W). rewrite E in H. cbn [bind] in H.
  assert (Q : forall w, In w l -> plain_value w /\ w <> []) by (intros w Hw; split; [eapply P; eauto|eapply words_nonempty; eauto]).
  destruct l as [|w l].
  - apply parse_cmp_conv in H; [|intros ? []]. destruct H as (b' & C & ->). eapply cond_plain; eauto. discriminate.
  - destruct (bytes_eqb w BANG) eqn:B.
    + apply bytes_eqb_spec in B. subst w. apply parse_cmp_conv in H; [|intros w Hw; apply Q; simpl; auto].
      destruct H as (b' & C & ->). eapply cond_not; eauto.
    + apply parse_cmp_conv in H; [|exact Q]. destruct H as (b' & C & ->). eapply cond_plain; eauto.
      cbn. intros X. injection X as ->. rewrite (proj2 (bytes_eqb_spec BANG BANG) eq_refl) in B. discriminate.
Qed.

Lemma trim_idem s : trim (trim s ws) ws = trim s ws.
Proof.
  destruct (trim_spec s ws) as (_ & _ & _ & _ & _ & C1 & C2). set (t := trim s ws) in *.
  destruct (trim_spec t ws) as (w1 & w2 & A & B1 & B2 & _ & _).
  destruct w1 as [|x w1].
  - destruct w2 as [|y w2] using rev_ind.
    + rewrite app_nil_r in A. cbn in A. congruence.
    + exfalso. rewrite app_nil_l, app_assoc in A. apply (C2 _ _ A). unfold all_in in B2. rewrite Forall_app in B2. destruct B2 as [_ B2]. inversion B2; auto.
  - exfalso. cbn in A. apply (C1 _ _ A). inversion B1; auto.
Qed.
Lemma parse_if_trim cs e : parse_if cs (trim e ws) = parse_if cs e.
Proof. rewrite !parse_if_eq. unfold split_ws. rewrite trim_idem. reflexivity. Qed.
Lemma trim_ws w : all_in ws w -> trim w ws = [].
Proof.
  intros H. destruct (trim_spec w ws) as (w1 & w2 & A & _ & _ & C1 & _). destruct (trim w ws) as [|x r] eqn:E; [reflexivity|].
  exfalso. apply (C1 x r eq_refl). unfold all_in in H. rewrite Forall_forall in H. apply H. rewrite A. apply in_or_app. right. simpl. auto.
Qed.
Lemma ws_trim w : trim w ws = [] -> all_in ws w.
Proof.
  intros H. destruct (trim_spec w ws) as (w1 & w2 & A & B1 & B2 & _). rewrite H in A. cbn in A. rewrite A. apply Forall_app. auto.
Qed.

(** * Runs *)
Section R.
Variable cs : constants.

Definition mark (on b : bool) : Z := if on then if b then 1 else 0 else -1.
Lemma mark_including on b st : including (mark on b :: st) = Ok (on && b).
Proof. destruct on, b; reflexivity. Qed.

Lemma run_app l1 l2 d : drv_run cs d (l1 ++ l2) = let* d' := drv_run cs d l1 in drv_run cs d' l2.
Proof. revert d. induction l1 as [|i l1 IH]; intros d; [reflexivity|]. cbn [app drv_run]. destruct (drv_step cs d i); cbn [bind]; auto. Qed.

Lemma step_text on st seen er t :
  drv_step cs (mkDrv st (negb on) seen er) (Text t) = Ok (mkDrv st (negb on) (seen ++ (if on then [t] else [])) er).
Proof. destruct on; cbn; [|rewrite app_nil_r]; reflexivity. Qed.
Lemma step_if on st ig seen er e b : including st = Ok on -> (on = true -> condition cs e b) ->
  drv_step cs (mkDrv st ig seen er) (Directive AT_IF e) = Ok (mkDrv (mark on b :: st) (negb (on && b)) seen er).
Proof.
  intros I C. cbn [drv_step d_stack d_ignore d_seen d_errors]. unfold process_line. cbn [bytes_eqb prefixb AT_IF Z.eqb Pos.eqb andb length Nat.eqb].
  rewrite I. cbn [bind]. destruct on.
  - rewrite parse_if_trim, (parse_if_ok _ _ _ (C eq_refl)). cbn [bind]. destruct b; reflexivity.
  - reflexivity.
Qed.
Lemma step_else on st b ig seen er w : st <> [] -> all_in ws w ->
  drv_step cs (mkDrv (mark on b :: st) ig seen er) (Directive AT_ELSE w) = Ok (mkDrv (mark on (negb b) :: st) (negb (on && negb b)) seen er).
Proof.
  intros N W. cbn [drv_step d_stack d_ignore d_seen d_errors]. rewrite (trim_ws w W). unfold process_line.
  change (bytes_eqb AT_ELSE AT_IF) with false. change (bytes_eqb AT_ELSE AT_ELSE) with true. cbn [length Nat.eqb negb].
  destruct st as [|x st]; [congruence|]. cbn [length Nat.eqb]. destruct on, b; reflexivity.
Qed.
Lemma step_end x st on ig seen er w : including st = Ok on -> all_in ws w ->
  drv_step cs (mkDrv (x :: st) ig seen er) (Directive AT_ENDIF w) = Ok (mkDrv st (negb on) seen er).
Proof.
  intros N W. cbn [drv_step d_stack d_ignore d_seen d_errors]. rewrite (trim_ws w W). unfold process_line.
  change (bytes_eqb AT_ENDIF AT_IF) with false. change (bytes_eqb AT_ENDIF AT_ELSE) with false. change (bytes_eqb AT_ENDIF AT_ENDIF) with true. cbn [length Nat.eqb negb].
  destruct st as [|y st]; [discriminate|]. cbn [length Nat.eqb bind]. rewrite N. reflexivity.
Qed.

Scheme selects_ind' := Induction for selects Sort Prop with branches_ind' := Induction for branches Sort Prop.
Combined Scheme sel_br_ind from selects_ind', branches_ind'.

Lemma sel_run many :
  (forall on l out, selects many cs on l out -> forall st seen er, including st = Ok on ->
     drv_run cs (mkDrv st (negb on) seen er) l = Ok (mkDrv st (negb on) (seen ++ out) er)) /\
  (forall on b more l out, branches many cs on b more l out -> forall st seen er, including st = Ok on ->
     drv_run cs (mkDrv (mark on b :: st) (negb (on && b)) seen er) l = Ok (mkDrv st (negb on) (seen ++ out) er)).
Proof.
  apply sel_br_ind.
  - intros on st seen er _. rewrite app_nil_r. reflexivity.
  - intros on t l out _ IH st seen er I. cbn [drv_run]. rewrite step_text. cbn [bind]. rewrite IH by exact I. rewrite app_assoc. reflexivity.
  - intros on e b blk o1 l o2 C _ IH1 _ IH2 st seen er I. cbn [drv_run]. rewrite (step_if _ _ _ _ _ _ _ I C). cbn [bind].
    rewrite run_app, IH1 by exact I. cbn [bind]. rewrite IH2 by exact I. rewrite app_assoc. reflexivity.
  - intros on b more body o w _ IH W st seen er I. rewrite run_app, IH by apply mark_including. cbn [bind drv_run].
    rewrite (step_end _ _ _ _ _ _ _ I W). reflexivity.
  - intros on b body o1 w rest o2 _ IH1 W _ IH2 st seen er I. rewrite run_app, IH1 by apply mark_including. cbn [bind drv_run].
    rewrite step_else; [|destruct st; [discriminate I|discriminate]|exact W]. cbn [bind]. rewrite IH2 by exact I. rewrite app_assoc. reflexivity.
Qed.

Lemma step_errors d i d' : drv_step cs d i = Ok d' -> (d_errors d <= d_errors d')%nat.
Proof.
  destruct i as [t|n r]; cbn [drv_step].
  - intros H. injection H as <-. destruct (d_ignore d); cbn; lia.
  - destruct (process_line cs (d_stack d) n (trim r ws)) as [[st|]| |]; cbn [bind]; try discriminate.
    + destruct (including st); cbn [bind]; try discriminate. intros H. injection H as <-. cbn. lia.
    + intros H. injection H as <-. cbn. lia.
Qed.
Lemma run_errors l : forall d d', drv_run cs d l = Ok d' -> (d_errors d <= d_errors d')%nat.
Proof.
  induction l as [|i l IH]; intros d d'; cbn [drv_run]; [intros H; injection H as <-; lia|].
  destruct (drv_step cs d i) as [d1| |] eqn:E; cbn [bind]; try discriminate. intros H. apply step_errors in E. apply IH in H. lia.
Qed.

Definition plain_item (i : item) : Prop := match i with Text _ => True | Directive _ e => plain_expr e end.

(** Without errors, what a directive does. *)
Lemma step_directive on st ig seen n r d' : including st = Ok on -> plain_expr r ->
  drv_step cs (mkDrv st ig seen 0) (Directive n r) = Ok d' -> d_errors d' = 0%nat ->
  (n = AT_IF /\ exists b, (on = true -> condition cs r b) /\ d' = mkDrv (mark on b :: st) (negb (on && b)) seen 0) \/
  (n = AT_ELSE /\ all_in ws r /\ exists x st', st = x :: st' /\ st' <> []) \/
  (n = AT_ENDIF /\ all_in ws r /\ exists x st', st = x :: st' /\ st' <> []).
Proof.
  intros I P H E0. cbn [drv_step d_stack d_ignore d_seen d_errors] in H. unfold process_line in H.
  destruct (bytes_eqb n AT_IF) eqn:E1.
  - apply bytes_eqb_spec in E1. left. split; [exact E1|]. rewrite I in H. cbn [bind] in H. destruct on.
    + rewrite parse_if_trim in H. destruct (parse_if cs r) as [[b|]| |] eqn:PI; cbn [bind] in H; try discriminate.
      * exists b. split; [intros _; apply parse_if_conv; auto|]. destruct b; cbn in H; injection H as <-; reflexivity.
      * injection H as <-. discriminate.
    + exists false. split; [discriminate|]. cbn in H. injection H as <-. reflexivity.
  - right. destruct (bytes_eqb n AT_ELSE) eqn:E2.
    + apply bytes_eqb_spec in E2. left. split; [exact E2|].
      destruct (length (trim r ws) =? 0)%nat eqn:L; cbn [negb bind] in H; [|injection H as <-; discriminate].
      apply Nat.eqb_eq in L. split; [apply ws_trim; destruct (trim r ws); [reflexivity|discriminate]|].
      destruct st as [|x st]; [discriminate I|]. exists x, st. split; [reflexivity|]. intros ->. cbn in H. injection H as <-. discriminate.
    + destruct (bytes_eqb n AT_ENDIF) eqn:E3.
      * apply bytes_eqb_spec in E3. right. split; [exact E3|].
        destruct (length (trim r ws) =? 0)%nat eqn:L; cbn [negb bind] in H; [|injection H as <-; discriminate].
        apply Nat.eqb_eq in L. split; [apply ws_trim; destruct (trim r ws); [reflexivity|discriminate]|].
        destruct st as [|x st]; [discriminate I|]. exists x, st. split; [reflexivity|]. intros ->. cbn in H. injection H as <-. discriminate.
      * cbn in H. injection H as <-. discriminate.
Qed.

(** From any state: a well-nested part, then nothing or the end of the current part; and, inside of a block, its rest. *)
Lemma run_parse n :
  (forall l on st seen d', (length l <= n)%nat -> Forall plain_item l -> including st = Ok on ->
    drv_run cs (mkDrv st (negb on) seen 0) l = Ok d' -> d_errors d' = 0%nat -> (length (d_stack d') <= length st)%nat ->
    exists body out rest, l = body ++ rest /\ selects true cs on body out /\
      (rest = [] \/ exists nm w rest', rest = Directive nm w :: rest' /\ (nm = AT_ELSE \/ nm = AT_ENDIF) /\ all_in ws w /\ (2 <= length st)%nat)) /\
  (forall l on b st seen d', (length l <= n)%nat -> Forall plain_item l -> including st = Ok on ->
    drv_run cs (mkDrv (mark on b :: st) (negb (on && b)) seen 0) l = Ok d' -> d_errors d' = 0%nat -> (length (d_stack d') <= length st)%nat ->
    exists blk out rest, l = blk ++ rest /\ branches true cs on b true blk out).
Proof.
  induction n as [|n [IP IQ]].
  { split.
    - intros [|] on st seen d' L _ _ _ _ _; [|cbn in L; lia]. exists [], [], []. repeat split; [constructor|auto].
    - intros [|] on b st seen d' L _ _ H _ Q; [|cbn in L; lia]. cbn in H. injection H as <-. cbn in Q. lia. }
  assert (P : forall l on st seen d', (length l <= S n)%nat -> Forall plain_item l -> including st = Ok on ->
    drv_run cs (mkDrv st (negb on) seen 0) l = Ok d' -> d_errors d' = 0%nat -> (length (d_stack d') <= length st)%nat ->
    exists body out rest, l = body ++ rest /\ selects true cs on body out /\
      (rest = [] \/ exists nm w rest', rest = Directive nm w :: rest' /\ (nm = AT_ELSE \/ nm = AT_ENDIF) /\ all_in ws w /\ (2 <= length st)%nat)).
  { intros l on st seen d' L F I H E0 Q. destruct l as [|i l].
    { exists [], [], []. repeat split; [constructor|auto]. }
    inversion F as [|? ? Fi Fl]; subst. destruct i as [t|nm w].
    - cbn [drv_run] in H. rewrite step_text in H. cbn [bind] in H.
      destruct (IP l on st _ d' ltac:(cbn in L; lia) Fl I H E0 Q) as (body & out & rest & -> & S1 & R).
      eexists (Text t :: body), _, rest. split; [reflexivity|]. split; [constructor; exact S1|exact R].
    - cbn [drv_run] in H. destruct (drv_step cs (mkDrv st (negb on) seen 0) (Directive nm w)) as [d1| |] eqn:E; cbn [bind] in H; try discriminate.
      assert (Z1 : d_errors d1 = 0%nat) by (apply run_errors in H; lia).
      destruct (step_directive _ _ _ _ _ _ _ I Fi E Z1) as [(-> & b & C & ->) | [(-> & W & x & st' & -> & N) | (-> & W & x & st' & -> & N)]].
      + destruct (IQ l on b st _ d' ltac:(cbn in L; lia) Fl I H E0 Q) as (blk & o1 & rest & -> & B).
        rewrite run_app, (proj2 (sel_run true) _ _ _ _ _ B _ _ _ I) in H. cbn [bind] in H.
        apply Forall_app in Fl. destruct Fl as [_ Fr]. cbn in L. rewrite app_length in L.
        destruct (IP rest on st _ d' ltac:(lia) Fr I H E0 Q) as (body & o2 & rest2 & -> & S2 & R).
        exists (Directive AT_IF w :: blk ++ body), (o1 ++ o2), rest2. split; [cbn; rewrite <- app_assoc; reflexivity|].
        split; [econstructor; eauto|exact R].
      + exists [], [], (Directive AT_ELSE w :: l). split; [reflexivity|]. split; [constructor|]. right. eexists _, _, _. repeat split; auto.
        destruct st'; [congruence|cbn; lia].
      + exists [], [], (Directive AT_ENDIF w :: l). split; [reflexivity|]. split; [constructor|]. right. eexists _, _, _. repeat split; auto.
        destruct st'; [congruence|cbn; lia]. }
  split; [exact P|].
  intros l on b st seen d' L F I H E0 Q.
  destruct (P l (on && b) (mark on b :: st) seen d' L F (mark_including on b st) H E0 ltac:(cbn [length]; lia)) as (body & o1 & rest & -> & S1 & R).
  rewrite run_app, (proj1 (sel_run true) _ _ _ S1 _ _ _ (mark_including on b st)) in H. cbn [bind] in H.
  apply Forall_app in F. destruct F as [_ Fr]. rewrite app_length in L.
  destruct R as [-> | (nm & w & rest' & -> & [-> | ->] & W & _)].
  - cbn in H. injection H as <-. cbn in Q. lia.
  - inversion Fr as [|? ? _ Fr']; subst. cbn [drv_run] in H. rewrite step_else in H; [|destruct st; [discriminate I|discriminate]|exact W]. cbn [bind] in H.
    destruct (IQ rest' on (negb b) st _ d' ltac:(cbn in L; lia) Fr' I H E0 Q) as (blk & o2 & rest2 & -> & B).
    exists (body ++ Directive AT_ELSE w :: blk), (o1 ++ o2), rest2. split; [rewrite <- app_assoc; reflexivity|]. eapply br_else; eauto.
  - exists (body ++ [Directive AT_ENDIF w]), o1, rest'. split; [rewrite <- app_assoc; reflexivity|]. eapply br_end; eauto.
Qed.

Lemma compile_conv l d : Forall plain_item l -> compile cs l = Ok d -> d_errors d = 0%nat -> expecting_directive (d_stack d) = false ->
  selects true cs true l (d_seen d).
Proof.
  intros F H E0 X. apply Nat.ltb_ge in X. unfold compile, drv_init in H.
  destruct (proj1 (run_parse (length l)) l true [1] [] d (le_n _) F eq_refl H E0 X) as (body & out & rest & -> & S1 & R).
  destruct R as [-> | (? & ? & ? & _ & _ & _ & L)]; [|cbn in L; lia]. rewrite app_nil_r in *.
  pose proof (proj1 (sel_run true) _ _ _ S1 [1] [] 0%nat eq_refl) as R. cbn [negb] in R. rewrite H in R. injection R as ->. exact S1.
Qed.
End R.
