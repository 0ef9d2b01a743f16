(** Proofs for C64 and C66: decoding, size, case. *)
From Verif Require Import Base StrModel UniModel UniSpec UniProofs.
Open Scope Z_scope.

Lemma strategy_eq (st : strategy) : {st = Strict} + {st <> Strict}.
Proof. destruct st; [right|right|left|right]; congruence. Qed.

Definition mark8 (st : strategy) : bytes := match st with Replace => fffd | _ => [] end.

Lemma skipn_app_exact {A} (a b : list A) : skipn (length a) (a ++ b) = b.
Proof. rewrite skipn_app, skipn_all, Nat.sub_diag. reflexivity. Qed.
Lemma char8_len cp c : char8 cp c -> (1 <= length c)%nat.
Proof. intros C. apply char8_nonempty in C. destruct c; [congruence|cbn; lia]. Qed.

(** ** [repaired] is total and deterministic *)
Lemma repaired_total mark s : Forall is_byte s -> exists r stop, repaired mark s r stop.
Proof.
  remember (length s) as n eqn:L. revert s L. induction n as [n IH] using (well_founded_induction lt_wf). intros s -> F.
  destruct s as [|b s0]; [exists [], []; constructor|]. set (s := b :: s0) in *.
  pose proof (next8_spec s ltac:(discriminate) F) as N. destruct (next8 s).
  - destruct N as (c & r & E & _ & C). rewrite E in *. assert (L := char8_len _ _ C).
    destruct (IH (length r)) with (s := r) as (r' & stop & R); [rewrite app_length; lia|reflexivity|now apply Forall_app in F|].
    exists (c ++ r'), stop. econstructor; eauto.
  - destruct (IH (length s0)) with (s := s0) as (r' & stop & R); [cbn; lia|reflexivity|now inversion F|].
    exists (mark ++ r'), stop. constructor; auto.
  - exists [], s. constructor. auto.
  - exists [], s. constructor. auto.
Qed.

Lemma garbage_next s : Forall is_byte s -> garbage s -> next8 s = N8Invalid.
Proof.
  intros F (NE & A & B & C). pose proof (next8_spec s NE F) as N. destruct (next8 s); auto.
  - destruct N as (c & r & E & _ & CH). exfalso. exact (A _ _ _ E CH).
  - contradiction.
  - contradiction.
Qed.

Ltac kill_nil := match goal with
  | C : char8 _ ?c, E : [] = ?c ++ _ |- _ => symmetry in E; apply app_eq_nil in E; destruct E as [E _]; apply char8_nonempty in C; contradiction
  | C : char8 _ ?c, E : ?c ++ _ = [] |- _ => apply app_eq_nil in E; destruct E as [E _]; apply char8_nonempty in C; contradiction
  end.

Lemma same_char cp cp' c c' s s' : char8 cp c -> char8 cp' c' -> c ++ s = c' ++ s' -> cp = cp' /\ c = c' /\ s = s'.
Proof.
  intros C C' E. assert (N : next8 (c ++ s) = next8 (c' ++ s')) by congruence. rewrite (next8_char _ _ _ C), (next8_char _ _ _ C') in N.
  assert (L : length c = length c') by congruence. assert (cp = cp') by congruence. subst.
  apply (f_equal (skipn (length c))) in E as E2. rewrite L in E2 at 2. rewrite !skipn_app_exact in E2. subst.
  apply app_inv_tail in E. auto.
Qed.

Lemma repaired_inv mark s r stop : Forall is_byte s -> repaired mark s r stop ->
  match s with
  | [] => r = [] /\ stop = []
  | b :: s' => match next8 s with
               | N8 cp n => exists r', r = firstn n s ++ r' /\ repaired mark (skipn n s) r' stop
               | N8Invalid => exists r', r = mark ++ r' /\ repaired mark s' r' stop
               | _ => r = [] /\ stop = s
               end
  end.
Proof.
  intros F R. destruct R as [|s D|cp c s r stop C R|b s r stop G R].
  - auto.
  - assert (N : next8 s = N8Short \/ next8 s = N8CodePoint) by (destruct D; auto using next8_cut_off, next8_not_scalar).
    destruct s; auto. destruct N as [-> | ->]; auto.
  - pose proof (next8_char cp c s C) as N. destruct (c ++ s) as [|b l] eqn:E; [kill_nil|]. rewrite N.
    rewrite <- E. exists r. rewrite firstn_app, firstn_all, Nat.sub_diag, skipn_app_exact. cbn [firstn]. rewrite app_nil_r. auto.
  - rewrite (garbage_next _ F G). eauto.
Qed.

Lemma repaired_fun mark s : Forall is_byte s -> forall r stop r' stop', repaired mark s r stop -> repaired mark s r' stop' -> r = r' /\ stop = stop'.
Proof.
  remember (length s) as n eqn:L. revert s L. induction n as [n IH] using (well_founded_induction lt_wf). intros s -> F r stop r' stop' R R'.
  apply repaired_inv in R; [|exact F]. apply repaired_inv in R'; [|exact F]. destruct s as [|b s]; [intuition congruence|].
  pose proof (next8_spec (b :: s) ltac:(discriminate) F) as N. destruct (next8 (b :: s)) as [cp n| | |].
  - destruct R as (r1 & -> & R1), R' as (r2 & -> & R2). destruct N as (c & t & E & <- & C). rewrite E, skipn_app_exact in R1, R2.
    rewrite E in F. apply Forall_app in F. assert (Lc := char8_len _ _ C).
    destruct (IH (length t)) with (s := t) (r := r1) (stop := stop) (r' := r2) (stop' := stop') as (-> & ->); auto; [rewrite E, app_length; lia|tauto].
  - destruct R as (r1 & -> & R1), R' as (r2 & -> & R2). inversion F; subst.
    destruct (IH (length s)) with (s := s) (r := r1) (stop := stop) (r' := r2) (stop' := stop') as (-> & ->); auto.
  - intuition congruence.
  - intuition congruence.
Qed.

(** ** transcode8 *)
Lemma fffd_enc : utf8_encode replacement = fffd.
Proof. reflexivity. Qed.
Lemma append8_scalar cp : scalar cp -> append8 cp = Ok (utf8_encode cp).
Proof. intros H. apply valid_cp_spec in H. unfold append8. rewrite H. reflexivity. Qed.

Lemma transcode8_repaired st mark s r stop : st <> Strict -> mark = mark8 st -> repaired mark s r stop -> Forall is_byte s -> forall fuel, (length s <= fuel)%nat ->
  transcode8 fuel st s = match stop with [] => Ok r | _ => Throw ForeignException end.
Proof.
  intros NS -> R. induction R as [|s D|cp c s r stop C R IH|b s r stop G R IH]; intros F fuel L.
  - destruct fuel; reflexivity.
  - assert (N : next8 s = N8Short \/ next8 s = N8CodePoint) by (destruct D; auto using next8_cut_off, next8_not_scalar).
    destruct s as [|b s]; [destruct D as [(D & _)|D]; [congruence|apply next8_not_scalar in D; discriminate]|].
    destruct fuel as [|fuel]; [cbn in L; lia|]. cbn [transcode8]. destruct N as [-> | ->]; reflexivity.
  - assert (Lc := char8_len _ _ C). rewrite app_length in L. destruct fuel as [|fuel]; [lia|].
    replace (transcode8 (S fuel) st (c ++ s)) with
      (let* a := append8 cp in let* r := transcode8 fuel st s in Ok (a ++ r)).
    2: { pose proof (next8_char cp c s C) as N. destruct c as [|b c]; [cbn in Lc; lia|]. cbn [transcode8 app] in *. rewrite N.
         replace (skipn (length (b :: c)) (b :: c ++ s)) with s by (symmetry; apply (skipn_app_exact (b :: c) s)). reflexivity. }
    rewrite append8_scalar by apply C. cbn [bind]. apply Forall_app in F. rewrite (IH (proj2 F) fuel) by lia.
    rewrite <- (char8_encode _ _ C). destruct stop; reflexivity.
  - destruct fuel as [|fuel]; [cbn in L; lia|]. cbn [transcode8]. rewrite (garbage_next _ F G). cbn [length] in L. inversion F; subst.
    cbn [skipn]. rewrite (IH H2 fuel) by lia. destruct st; cbn [mark8 app]; try congruence.
    rewrite append8_scalar by (unfold scalar, replacement; lia). cbn [bind]. destruct stop; reflexivity.
Qed.

Lemma valid_repaired mark cps s : text8 cps s -> repaired mark s s [].
Proof. induction 1; econstructor; eauto. Qed.
Lemma text8_app a b s t : text8 a s -> text8 b t -> text8 (a ++ b) (s ++ t).
Proof. intros A. induction A; intros B; cbn; auto. rewrite <- app_assoc. constructor; auto. Qed.
Lemma text8_fffd : text8 [65533] fffd.
Proof. apply (text8_of [65533]). repeat constructor; lia. Qed.
Lemma mark8_text st : exists cps, text8 cps (mark8 st).
Proof. destruct st; cbn; eauto using text8_nil, text8_fffd. Qed.
Lemma repaired_valid mark s r : (exists cps, text8 cps mark) -> repaired mark s r [] -> valid8 r.
Proof.
  intros (m & M) R. remember [] as stop eqn:E. induction R as [|s D|cp c s r stop C R IH|b s r stop G R IH]; subst.
  - exists []. constructor.
  - exists []. constructor.
  - destruct (IH eq_refl) as (cps & T). exists (cp :: cps). constructor; auto.
  - destruct (IH eq_refl) as (cps & T). exists (m ++ cps). apply text8_app; auto.
Qed.

Lemma valid8_inv s : s <> [] -> valid8 s -> exists cp c t, s = c ++ t /\ char8 cp c /\ valid8 t.
Proof. intros NE (cps & T). destruct T as [|cp c cps t C T]; [congruence|]. exists cp, c, t. repeat split; try apply C. exists cps; exact T. Qed.

Lemma transcode8_strict s : Forall is_byte s -> forall fuel, (length s <= fuel)%nat ->
  (valid8 s /\ transcode8 fuel Strict s = Ok s) \/ (~ valid8 s /\ exists e, transcode8 fuel Strict s = Throw e).
Proof.
  remember (length s) as n eqn:L. revert s L. induction n as [n IH] using (well_founded_induction lt_wf). intros s -> F fuel Lf.
  destruct s as [|b s0]; [left; split; [exists []; constructor|destruct fuel; reflexivity]|].
  destruct fuel as [|fuel]; [cbn in Lf; lia|]. remember (b :: s0) as s eqn:Es.
  assert (NE : s <> []) by (subst; discriminate).
  replace (transcode8 (S fuel) Strict s) with
    (match next8 s with
     | N8 cp n => let* a := append8 cp in let* r := transcode8 fuel Strict (skipn n s) in Ok (a ++ r)
     | N8Invalid => Throw RuntimeError
     | _ => Throw ForeignException
     end : res bytes) by (subst s; reflexivity).
  pose proof (next8_spec s NE F) as N.
  destruct (next8 s) as [cp n| | |] eqn:E.
  2, 3, 4: right; split; [|eauto]; intros V; apply valid8_inv in V; [|exact NE]; destruct V as (cp & c & t & E1 & C & V);
    rewrite E1, (next8_char _ _ _ C) in E; discriminate.
  destruct N as (c & t & E1 & <- & C). rewrite append8_scalar by apply C. cbn [bind]. rewrite E1, skipn_app_exact. 
  assert (Lc := char8_len _ _ C). rewrite E1 in F. apply Forall_app in F. rewrite E1, app_length in Lf.
  destruct (IH (length t)) with (s := t) (fuel := fuel) as [(V & ->)|(V & e & ->)]; auto; try tauto; [rewrite E1, app_length; lia|lia| |].
  - left. split.
    + destruct V as (cps & V). exists (cp :: cps). constructor; auto.
    + cbn [bind]. rewrite <- (char8_encode _ _ C). reflexivity.
  - right. split; [|exists e; reflexivity]. intros V'. apply valid8_inv in V'; [|intros Q; apply app_eq_nil in Q; destruct Q as [Q _]; apply char8_nonempty in C; contradiction].
    destruct V' as (cp' & c' & t' & E2 & C' & V'). destruct (same_char _ _ _ _ _ _ C C' E2) as (_ & _ & ->). contradiction.
Qed.

(** ** decode and encode, UTF-8 *)
Lemma decode8 s st : bytes_decode s UTF8 st = wrap (transcode8 (length s) st s).
Proof. destruct s; reflexivity. Qed.
Lemma encode8 s st : string_encode s UTF8 st = wrap (transcode8 (length s) st s).
Proof. destruct s; reflexivity. Qed.

Lemma decode8_exact s st r : Forall is_byte s -> st <> Strict -> (bytes_decode s UTF8 st = Ok r <-> repaired (mark8 st) s r []).
Proof.
  intros F NS. rewrite decode8. destruct (repaired_total (mark8 st) s F) as (r0 & stop & R).
  rewrite (transcode8_repaired st _ s r0 stop NS eq_refl R F) by lia. split.
  - destruct stop; cbn; [|discriminate]. intros E. congruence.
  - intros R'. destruct (repaired_fun _ _ F _ _ _ _ R R') as (-> & ->). reflexivity.
Qed.
Lemma decode8_throws s st : Forall is_byte s -> (forall r, bytes_decode s UTF8 st <> Ok r) -> bytes_decode s UTF8 st = Throw RuntimeError.
Proof.
  intros F N. rewrite decode8 in *. destruct (strategy_eq st) as [-> | NS].
  - destruct (transcode8_strict s F (length s) (le_n _)) as [(_ & E)|(_ & e & E)]; rewrite E in *; [exfalso; exact (N s eq_refl)|reflexivity].
  - destruct (repaired_total (mark8 st) s F) as (r0 & stop & R). rewrite (transcode8_repaired st _ s r0 stop NS eq_refl R F) in * by lia.
    destruct stop; cbn in *; [exfalso; exact (N r0 eq_refl)|reflexivity].
Qed.
Lemma decode8_strict s r : Forall is_byte s -> (bytes_decode s UTF8 Strict = Ok r <-> valid8 s /\ r = s).
Proof.
  intros F. rewrite decode8. destruct (transcode8_strict s F (length s) (le_n _)) as [(V & E)|(V & e & E)]; rewrite E; cbn.
  - split; [intros Q; split; congruence|intros [_ ->]; reflexivity].
  - split; [discriminate|tauto].
Qed.
Lemma decode8_valid s st r : Forall is_byte s -> bytes_decode s UTF8 st = Ok r -> valid8 r.
Proof.
  intros F E. destruct (strategy_eq st) as [-> | NS].
  - apply decode8_strict in E; [|exact F]. destruct E as [V ->]. exact V.
  - apply decode8_exact in E; auto. eapply repaired_valid; [apply mark8_text|exact E].
Qed.
Lemma decode8_id s st : valid8 s -> bytes_decode s UTF8 st = Ok s.
Proof.
  intros V. assert (F : Forall is_byte s) by (destruct V as (cps & T); eapply text8_bytes; exact T).
  destruct (strategy_eq st) as [-> | NS].
  - apply decode8_strict; auto.
  - apply decode8_exact; auto. destruct V as (cps & T). eapply valid_repaired; exact T.
Qed.

(** ** ASCII *)
Definition mark_ascii (st : strategy) : bytes := match st with Replace => [63] | _ => [] end.
Lemma ascii_exact s st r : st <> Strict -> (transcode_ascii st s = Ok r <-> ascii_repaired (mark_ascii st) s r).
Proof.
  intros NS. revert r. induction s as [|c s IH]; intros r; cbn [transcode_ascii].
  - split; [intros E; replace r with (@nil byte) by congruence; constructor|inversion 1; reflexivity].
  - destruct ((32 <=? c) && (c <? 127)) eqn:P.
    + assert (PP : printable c) by (unfold printable; lia). split.
      * destruct (transcode_ascii st s) as [t| |]; cbn; try discriminate. intros E. injection E as <-. constructor; auto. apply IH. reflexivity.
      * inversion 1; subst; [|contradiction]. apply IH in H4. rewrite H4. reflexivity.
    + assert (PP : ~ printable c) by (unfold printable; lia). split.
      * destruct st; try congruence; intros E.
        -- apply (asc_mark [] c s r PP). apply IH, E.
        -- destruct (transcode_ascii Replace s) as [t| |]; cbn in E; try discriminate. injection E as <-. apply (asc_mark [63] c s t PP). apply IH. reflexivity.
        -- apply (asc_mark [] c s r PP). apply IH, E.
      * inversion 1; subst; [contradiction|]. apply IH in H4. destruct st; try congruence; cbn [mark_ascii app]; rewrite H4; reflexivity.
Qed.
Lemma ascii_total mark s : exists r, ascii_repaired mark s r.
Proof.
  induction s as [|c s [r IH]]; [exists []; constructor|]. destruct (Z_le_dec 32 c), (Z_le_dec c 126).
  1: exists (c :: r); constructor; auto; unfold printable; lia.
  all: exists (mark ++ r); constructor; auto; unfold printable; lia.
Qed.
Lemma ascii_strict s : transcode_ascii Strict s = Ok s /\ Forall printable s \/ transcode_ascii Strict s = Throw RuntimeError /\ ~ Forall printable s.
Proof.
  induction s as [|c s IH]; [left; split; auto|]. cbn [transcode_ascii]. destruct ((32 <=? c) && (c <? 127)) eqn:P.
  - assert (PP : printable c) by (unfold printable; lia). destruct IH as [[-> IH]|[-> IH]]; [left; split; auto|right; split; auto; inversion 1; contradiction].
  - right. split; [reflexivity|]. inversion 1; subst. unfold printable in *. lia.
Qed.

(** ** size *)
Lemma size_repaired st s : Forall is_byte s -> st = Replace \/ st = Ignore -> forall r stop, repaired (mark8 st) s r stop -> forall fuel len, (length s <= fuel)%nat ->
  (stop <> [] /\ size_loop fuel st s len = Some (Throw ForeignException)) \/
  (stop = [] /\ exists cps, text8 cps r /\ size_loop fuel st s len = Some (Ok (len + Z.of_nat (length cps)))).
Proof.
  remember (length s) as n eqn:L. revert s L. induction n as [n IH] using (well_founded_induction lt_wf). intros s -> F ST r stop R fuel len Lf.
  apply repaired_inv in R; [|exact F]. destruct s as [|b s0].
  { destruct R as [-> ->]. right. split; auto. exists []. split; [constructor|]. cbn. rewrite Z.add_0_r. destruct fuel; reflexivity. }
  destruct fuel as [|fuel]; [cbn in Lf; lia|]. cbn [size_loop].
  pose proof (next8_spec (b :: s0) ltac:(discriminate) F) as N. destruct (next8 (b :: s0)) as [cp n| | |].
  - destruct R as (r1 & -> & R1). destruct N as (c & t & E & <- & C). rewrite E in *. rewrite skipn_app_exact in *.
    rewrite firstn_app, firstn_all, Nat.sub_diag, app_nil_r.
    apply Forall_app in F. assert (Lc := char8_len _ _ C). rewrite app_length in *.
    destruct (IH (length t)) with (s := t) (r := r1) (stop := stop) (fuel := fuel) (len := len + 1) as [(A & B)|(A & cps & T & B)]; auto; try tauto; try lia.
    right. split; auto. exists (cp :: cps). split; [constructor; auto|]. rewrite B. do 2 f_equal. cbn [length]. lia.
  - destruct R as (r1 & -> & R1). inversion F as [|? ? _ F']; subst. cbn [length] in *. cbn [skipn].
    destruct ST as [-> | ->].
    + destruct (IH (length s0)) with (s := s0) (r := r1) (stop := stop) (fuel := fuel) (len := len + 1) as [(A & B)|(A & cps & T & B)]; auto; try lia.
      right. split; auto. exists (65533 :: cps). split; [apply (text8_app [65533] cps fffd r1); auto using text8_fffd|]. rewrite B. do 2 f_equal. cbn [length]. lia.
    + destruct (IH (length s0)) with (s := s0) (r := r1) (stop := stop) (fuel := fuel) (len := len) as [(A & B)|(A & cps & T & B)]; auto; try lia.
      right. split; auto. exists cps. split; auto.
  - destruct R as [-> ->]. left. split; [discriminate|reflexivity].
  - destruct R as [-> ->]. left. split; [discriminate|reflexivity].
Qed.

Lemma size_valid st s cps : text8 cps s -> forall fuel len, (length s <= fuel)%nat -> size_loop fuel st s len = Some (Ok (len + Z.of_nat (length cps))).
Proof.
  induction 1 as [|cp c cps s C T IH]; intros fuel len L.
  - cbn. rewrite Z.add_0_r. destruct fuel; reflexivity.
  - assert (Lc := char8_len _ _ C). rewrite app_length in L. destruct fuel as [|fuel]; [lia|].
    pose proof (next8_char cp c s C) as N. destruct (c ++ s) as [|b l] eqn:E; [kill_nil|]. cbn [size_loop]. rewrite N, <- E, skipn_app_exact.
    rewrite IH by lia. do 2 f_equal. cbn [length]. lia.
Qed.

Lemma size_strict s : Forall is_byte s -> forall fuel len, (length s <= fuel)%nat -> ~ valid8 s -> exists e, size_loop fuel Strict s len = Some (Throw e).
Proof.
  remember (length s) as n eqn:L. revert s L. induction n as [n IH] using (well_founded_induction lt_wf). intros s -> F fuel len Lf NV.
  destruct s as [|b s0]; [exfalso; apply NV; exists []; constructor|].
  destruct fuel as [|fuel]; [cbn in Lf; lia|]. cbn [size_loop].
  pose proof (next8_spec (b :: s0) ltac:(discriminate) F) as N. destruct (next8 (b :: s0)) as [cp n| | |]; eauto.
  destruct N as (c & t & E & <- & C). rewrite E in *. rewrite skipn_app_exact. apply Forall_app in F. assert (Lc := char8_len _ _ C). rewrite app_length in *.
  apply (IH (length t)); auto; try tauto; try lia. intros (cps & T). apply NV. exists (cp :: cps). constructor; auto.
Qed.

(** ** upper and lower *)
Lemma iterate_char cp c r : char8 cp c -> iterate (c ++ r) = Some (cp, length c).
Proof. intros C. unfold iterate. rewrite (next8_char _ _ _ C). reflexivity. Qed.
Lemma iterate_spec s : s <> [] -> Forall is_byte s ->
  match iterate s with
  | Some (cp, n) => exists c r, s = c ++ r /\ length c = n /\ char8 cp c
  | None => forall cp c t, s = c ++ t -> ~ char8 cp c
  end.
Proof.
  intros NE F. unfold iterate. pose proof (next8_spec s NE F) as N. destruct (next8 s) eqn:E; auto.
  all: intros cp c t -> C; rewrite (next8_char _ _ _ C) in E; discriminate.
Qed.

Lemma map_case_scrubbed up st s : (forall cp, scalar cp -> scalar (up cp)) -> Forall is_byte s -> st <> Strict ->
  forall fuel, (length s <= fuel)%nat -> exists r, map_case up fuel st s = Ok r /\ scrubbed up (mark8 st) s r.
Proof.
  intros U. remember (length s) as n eqn:L. revert s L. induction n as [n IH] using (well_founded_induction lt_wf). intros s -> F ST fuel Lf.
  destruct s as [|b s0]; [exists []; split; [destruct fuel; reflexivity|constructor]|].
  destruct fuel as [|fuel]; [cbn in Lf; lia|]. cbn [map_case].
  pose proof (iterate_spec (b :: s0) ltac:(discriminate) F) as N. destruct (iterate (b :: s0)) as [[cp n]|].
  - destruct N as (c & t & E & <- & C). rewrite E in *. rewrite skipn_app_exact. apply Forall_app in F. assert (Lc := char8_len _ _ C). rewrite app_length in *.
    destruct (IH (length t)) with (s := t) (fuel := fuel) as (r & -> & R); auto; try tauto; try lia.
    exists (utf8_encode (up cp) ++ r). split; [reflexivity|]. econstructor; eauto. apply utf8_encode_char, U, C.
  - cbn [length] in *. inversion F as [|? ? _ F']; subst. destruct (IH (length s0)) with (s := s0) (fuel := fuel) as (r & E & R); auto; try lia.
    cbn [skipn]. destruct st; try congruence; rewrite E; cbn [bind].
    + exists r. split; [reflexivity|]. apply (scr_mark up [] b s0 r N R).
    + exists (fffd ++ r). split; [reflexivity|]. apply (scr_mark up fffd b s0 r N R).
    + exists r. split; [reflexivity|]. apply (scr_mark up [] b s0 r N R).
Qed.
Lemma scrubbed_fun up mark s : Forall is_byte s -> forall r r', scrubbed up mark s r -> scrubbed up mark s r' -> r = r'.
Proof.
  intros F r r' R. revert r'. induction R as [|cp c c' s r C C' R IH|b s r N R IH]; intros r' R'.
  - inversion R'; subst; auto. kill_nil.
  - inversion R' as [E|cp1 c1 c1' s1 r1 C1 C1' R1 E|b1 s1 r1 N1 R1 E]; subst.
    + kill_nil.
    + destruct (same_char _ _ _ _ _ _ C1 C E) as (-> & -> & ->). apply Forall_app in F. rewrite (IH (proj2 F) _ R1).
      f_equal. rewrite (char8_encode _ _ C'), (char8_encode _ _ C1'). reflexivity.
    + exfalso. exact (N1 _ _ _ E C).
  - inversion R' as [E|cp1 c1 c1' s1 r1 C1 C1' R1 E|b1 s1 r1 N1 R1 E]; subst.
    + exfalso. exact (N _ _ _ (eq_sym E) C1).
    + inversion F; subst. rewrite (IH H2 _ R1). reflexivity.
Qed.
Lemma map_case_strict up s : Forall is_byte s -> forall fuel, (length s <= fuel)%nat ->
  (exists cps, text8 cps s /\ map_case up fuel Strict s = Ok (flat_map utf8_encode (map up cps))) \/ (~ valid8 s /\ map_case up fuel Strict s = Throw RuntimeError).
Proof.
  remember (length s) as n eqn:L. revert s L. induction n as [n IH] using (well_founded_induction lt_wf). intros s -> F fuel Lf.
  destruct s as [|b s0]; [left; exists []; split; [constructor|destruct fuel; reflexivity]|].
  destruct fuel as [|fuel]; [cbn in Lf; lia|]. cbn [map_case].
  pose proof (iterate_spec (b :: s0) ltac:(discriminate) F) as N. destruct (iterate (b :: s0)) as [[cp n]|].
  - destruct N as (c & t & E & <- & C). rewrite E in *. rewrite skipn_app_exact. apply Forall_app in F. assert (Lc := char8_len _ _ C). rewrite app_length in *.
    destruct (IH (length t)) with (s := t) (fuel := fuel) as [(cps & T & ->)|(V & ->)]; auto; try tauto; try lia.
    + left. exists (cp :: cps). split; [constructor; auto|reflexivity].
    + right. split; [|reflexivity]. intros V'. apply valid8_inv in V'; [|intros Q; kill_nil].
      destruct V' as (cp' & c' & t' & E2 & C' & V'). destruct (same_char _ _ _ _ _ _ C C' E2) as (_ & _ & ->). contradiction.
  - right. split; [|reflexivity]. intros V. apply valid8_inv in V; [|discriminate]. destruct V as (cp & c & t & E & C & _). exact (N _ _ _ E C).
Qed.
Lemma scrubbed_valid up mark cps s r : (forall cp, scalar cp -> scalar (up cp)) -> text8 cps s -> text8 (map up cps) r -> scrubbed up mark s r.
Proof.
  intros U T. revert r. induction T as [|cp c cps s C T IH]; intros r T'; cbn [map] in T'; inversion T'; subst; [constructor|].
  econstructor; eauto.
Qed.
