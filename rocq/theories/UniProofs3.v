(** Proofs for C65: UTF-16. *)
From Verif Require Import Base StrModel UniModel UniSpec UniProofs UniProofs2.
Open Scope Z_scope.

Definition is_unit (u : Z) : Prop := 0 <= u < 65536.
Definition mark16 (st : strategy) : list Z := match st with Replace => [65533] | _ => [] end.

Lemma lead16_spec u : is_lead16 u = true <-> exists x, u = 55296 + x /\ 0 <= x < 1024.
Proof. unfold is_lead16. split; [intros H; exists (u - 55296); lia|intros (x & -> & H); lia]. Qed.
Lemma trail16_spec u : is_trail16 u = true <-> exists x, u = 56320 + x /\ 0 <= x < 1024.
Proof. unfold is_trail16. split; [intros H; exists (u - 56320); lia|intros (x & -> & H); lia]. Qed.

Lemma next16_char cp c r : char16 cp c -> next16 (c ++ r) = N16 cp (length c).
Proof.
  intros (S1 & [(-> & L)|(hi & lo & -> & H1 & H2 & ->)]); cbn [app next16 length].
  - unfold scalar in S1. replace (is_lead16 cp || is_trail16 cp) with false; [reflexivity|]. unfold is_lead16, is_trail16. lia.
  - assert (A : is_lead16 (55296 + hi) = true) by (apply lead16_spec; eauto).
    assert (B : is_trail16 (56320 + lo) = true) by (apply trail16_spec; eauto). rewrite A, B. cbn [orb negb].
    f_equal. lia.
Qed.
Lemma char16_len cp c : char16 cp c -> (1 <= length c)%nat.
Proof. intros (_ & [(-> & _)|(hi & lo & -> & _)]); cbn; lia. Qed.
Lemma next16_spec us : us <> [] -> Forall is_unit us ->
  match next16 us with
  | N16 cp n => exists c r, us = c ++ r /\ length c = n /\ char16 cp c
  | N16Short => exists u, us = [u] /\ surrogate u
  | N16Invalid => lone us
  end.
Proof.
  intros NE F. destruct us as [|u us]; [congruence|]. inversion F as [|? ? U F']; subst. unfold is_unit in U. cbn [next16].
  destruct (is_lead16 u || is_trail16 u) eqn:Q; cbn [negb].
  2: { exists [u], us. split; [reflexivity|]. split; [reflexivity|]. split; [|left; split; [reflexivity|lia]].
       unfold scalar. unfold is_lead16, is_trail16 in Q. lia. }
  assert (SU : surrogate u) by (unfold surrogate; unfold is_lead16, is_trail16 in Q; lia).
  assert (NC : is_lead16 u = false \/ (forall v t, us = v :: t -> is_trail16 v = false) -> forall cp c t, u :: us = c ++ t -> ~ char16 cp c).
  { intros H cp c t E (SC & [(-> & L)|(hi & lo & -> & H1 & H2 & _)]); cbn [app] in E.
    - apply cons_inj in E. destruct E as [-> _]. unfold scalar, surrogate in *. lia.
    - apply cons_inj in E. destruct E as [-> E]. destruct H as [H|H].
      + assert (A : is_lead16 (55296 + hi) = true) by (apply lead16_spec; eauto). congruence.
      + specialize (H _ _ E). assert (B : is_trail16 (56320 + lo) = true) by (apply trail16_spec; eauto). congruence. }
  destruct us as [|v us]; [exists u; auto|].
  destruct (is_lead16 u) eqn:LU.
  - destruct (is_trail16 v) eqn:TV.
    + apply lead16_spec in LU. apply trail16_spec in TV. destruct LU as (hi & -> & H1), TV as (lo & -> & H2).
      exists [55296 + hi; 56320 + lo], us. split; [reflexivity|]. split; [reflexivity|]. split; [unfold scalar; lia|].
      right. exists hi, lo. repeat split; try lia.
    + exists u, (v :: us). split; [reflexivity|]. split; [exact SU|]. split; [discriminate|]. apply NC. right. intros w t E. apply cons_inj in E. destruct E as [<- _]. exact TV.
  - exists u, (v :: us). split; [reflexivity|]. split; [exact SU|]. split; [discriminate|]. apply NC. left. reflexivity.
Qed.
Lemma next16_lone us : Forall is_unit us -> lone us -> next16 us = N16Invalid.
Proof.
  intros F (u & r & E & SU & NE & A). pose proof (next16_spec us) as N. rewrite E in N at 1. specialize (N ltac:(discriminate) F).
  destruct (next16 us); auto.
  - destruct N as (c & t & E2 & _ & C). exfalso. exact (A _ _ _ E2 C).
  - destruct N as (v & E2 & _). subst. injection E2 as -> ->. congruence.
Qed.

Lemma units_of_char cp : scalar cp -> char16 cp (units_of cp).
Proof.
  intros S1. split; [exact S1|]. unfold units_of. destruct (Z.ltb_spec cp 65536); [left; auto|]. right.
  exists ((cp - 65536) / 1024), ((cp - 65536) mod 1024). split; [reflexivity|]. unfold scalar in S1. Z.to_euclidean_division_equations; lia.
Qed.
Lemma char16_units cp c : char16 cp c -> c = units_of cp.
Proof.
  intros (S1 & [(-> & L)|(hi & lo & -> & H1 & H2 & ->)]); unfold units_of, scalar in *.
  - destruct (Z.ltb_spec cp 65536); [reflexivity|lia].
  - destruct (Z.ltb_spec (65536 + hi * 1024 + lo) 65536); [lia|].
    replace (65536 + hi * 1024 + lo - 65536) with (hi * 1024 + lo) by lia.
    replace ((hi * 1024 + lo) / 1024) with hi by (Z.to_euclidean_division_equations; lia).
    replace ((hi * 1024 + lo) mod 1024) with lo by (Z.to_euclidean_division_equations; lia). reflexivity.
Qed.
Lemma text16_units cps us : text16 cps us -> us = flat_map units_of cps /\ Forall scalar cps.
Proof.
  induction 1 as [|cp c cps us C _ [IH1 IH2]]; [split; constructor|]. cbn [flat_map]. rewrite <- IH1, <- (char16_units _ _ C).
  split; [reflexivity|]. constructor; [apply C|exact IH2].
Qed.
Lemma text16_of cps : Forall scalar cps -> text16 cps (flat_map units_of cps).
Proof. induction 1; cbn; constructor; auto using units_of_char. Qed.
Lemma char16_unit cp c : char16 cp c -> Forall is_unit c.
Proof. intros (S1 & [(-> & L)|(hi & lo & -> & H1 & H2 & ->)]); repeat constructor; unfold scalar in *; lia. Qed.
Lemma text16_unit cps us : text16 cps us -> Forall is_unit us.
Proof. induction 1 as [|cp c cps us C _ IH]; [constructor|]. apply Forall_app. split; [apply (char16_unit cp), C|exact IH]. Qed.
Lemma append16_scalar cp : scalar cp -> append16 cp = Ok (units_of cp).
Proof. intros H. apply valid_cp_spec in H. unfold append16. rewrite H. reflexivity. Qed.

Lemma char16_nonempty cp c : char16 cp c -> c <> [].
Proof. intros C ->. apply char16_len in C. cbn in C. lia. Qed.
Lemma same_char16 cp cp' c c' s s' : char16 cp c -> char16 cp' c' -> c ++ s = c' ++ s' -> cp = cp' /\ c = c' /\ s = s'.
Proof.
  intros C C' E. assert (N : next16 (c ++ s) = next16 (c' ++ s')) by congruence. rewrite (next16_char _ _ _ C), (next16_char _ _ _ C') in N.
  assert (L : length c = length c') by congruence. assert (cp = cp') by congruence. subst.
  apply (f_equal (skipn (length c))) in E as E2. rewrite L in E2 at 2. rewrite !skipn_app_exact in E2. subst.
  apply app_inv_tail in E. auto.
Qed.

(** ** repaired16 is total and deterministic *)
Lemma repaired16_total mark us : Forall is_unit us -> exists cps stop, repaired16 mark us cps stop.
Proof.
  remember (length us) as n eqn:L. revert us L. induction n as [n IH] using (well_founded_induction lt_wf). intros us -> F.
  destruct us as [|u us0]; [exists [], []; constructor|].
  pose proof (next16_spec (u :: us0) ltac:(discriminate) F) as N. destruct (next16 (u :: us0)) as [cp n| |].
  - destruct N as (c & r & E & _ & C). rewrite E in *. assert (L := char16_len _ _ C).
    destruct (IH (length r)) with (us := r) as (r' & stop & R); [rewrite app_length; lia|reflexivity|now apply Forall_app in F|].
    exists (cp :: r'), stop. constructor; auto.
  - destruct (IH (length us0)) with (us := us0) as (r' & stop & R); [cbn; lia|reflexivity|now inversion F|].
    exists (mark ++ r'), stop. constructor; auto.
  - destruct N as (v & E & SV). injection E as -> ->. exists [], [v]. constructor. exact SV.
Qed.
Lemma repaired16_inv mark us cps stop : Forall is_unit us -> repaired16 mark us cps stop ->
  match us with
  | [] => cps = [] /\ stop = []
  | u :: us' => match next16 us with
                | N16 cp n => exists r, cps = cp :: r /\ repaired16 mark (skipn n us) r stop
                | N16Invalid => exists r, cps = mark ++ r /\ repaired16 mark us' r stop
                | N16Short => cps = [] /\ stop = us
                end
  end.
Proof.
  intros F R. destruct R as [|u D|cp c us cps stop C R|u us cps stop G R].
  - auto.
  - cbn [next16]. replace (is_lead16 u || is_trail16 u) with true; [split; reflexivity|]. clear -D. unfold surrogate in D. unfold is_lead16, is_trail16. cmp; reflexivity.
  - pose proof (next16_char cp c us C) as N. destruct (c ++ us) as [|b l] eqn:E; [apply app_eq_nil in E; destruct E as [E _]; now apply char16_nonempty in C|]. rewrite N.
    rewrite <- E. exists cps. rewrite skipn_app_exact. auto.
  - rewrite (next16_lone _ F G). eauto.
Qed.
Lemma repaired16_fun mark us : Forall is_unit us -> forall r stop r' stop', repaired16 mark us r stop -> repaired16 mark us r' stop' -> r = r' /\ stop = stop'.
Proof.
  remember (length us) as n eqn:L. revert us L. induction n as [n IH] using (well_founded_induction lt_wf). intros us -> F r stop r' stop' R R'.
  apply repaired16_inv in R; [|exact F]. apply repaired16_inv in R'; [|exact F]. destruct us as [|b us]; [intuition congruence|].
  pose proof (next16_spec (b :: us) ltac:(discriminate) F) as N. destruct (next16 (b :: us)) as [cp n| |].
  - destruct R as (r1 & -> & R1), R' as (r2 & -> & R2). destruct N as (c & t & E & <- & C). rewrite E, skipn_app_exact in R1, R2.
    rewrite E in F. apply Forall_app in F. assert (Lc := char16_len _ _ C).
    destruct (IH (length t)) with (us := t) (r := r1) (stop := stop) (r' := r2) (stop' := stop') as (-> & ->); auto; [rewrite E, app_length; lia|tauto].
  - destruct R as (r1 & -> & R1), R' as (r2 & -> & R2). inversion F; subst.
    destruct (IH (length us)) with (us := us) (r := r1) (stop := stop) (r' := r2) (stop' := stop') as (-> & ->); auto.
  - intuition congruence.
Qed.
Lemma repaired16_scalar mark us cps stop : Forall scalar mark -> repaired16 mark us cps stop -> Forall scalar cps.
Proof.
  intros M R. induction R as [|u D|cp c us cps stop C R IH|u us cps stop G R IH]; auto.
  - constructor; [apply C|exact IH].
  - apply Forall_app. auto.
Qed.

(** ** the loops *)
Lemma transcode16_repaired st us : st <> Strict -> Forall is_unit us -> forall cps stop, repaired16 (mark16 st) us cps stop -> forall fuel, (length us <= fuel)%nat ->
  transcode16 fuel st us = match stop with [] => Ok (flat_map units_of cps) | _ => Throw ForeignException end.
Proof.
  intros NS. remember (length us) as n eqn:L. revert us L. induction n as [n IH] using (well_founded_induction lt_wf). intros us -> F cps stop R fuel Lf.
  apply repaired16_inv in R; [|exact F]. destruct us as [|u us].
  { destruct R as [-> ->]. destruct fuel; reflexivity. }
  destruct fuel as [|fuel]; [cbn in Lf; lia|]. cbn [transcode16].
  pose proof (next16_spec (u :: us) ltac:(discriminate) F) as N. destruct (next16 (u :: us)) as [cp n| |].
  - destruct R as (r1 & -> & R1). destruct N as (c & t & E & <- & C). rewrite E in *. rewrite skipn_app_exact in *.
    apply Forall_app in F. assert (Lc := char16_len _ _ C). rewrite app_length in *. rewrite append16_scalar by apply C. cbn [bind].
    rewrite (IH (length t)) with (us := t) (cps := r1) (stop := stop) by (auto; try tauto; lia). destruct stop; reflexivity.
  - destruct R as (r1 & -> & R1). inversion F as [|? ? _ F']; subst. cbn [length] in *. cbn [skipn].
    rewrite (IH (length us)) with (us := us) (cps := r1) (stop := stop) by (auto; try tauto; lia). 
    destruct st; try congruence; cbn [mark16 app]; try reflexivity.
    rewrite append16_scalar by (unfold scalar, replacement; lia). cbn [bind]. destruct stop; reflexivity.
  - destruct R as [-> ->]. reflexivity.
Qed.
Lemma transcode16_strict us : Forall is_unit us -> forall fuel, (length us <= fuel)%nat ->
  (exists cps, text16 cps us /\ transcode16 fuel Strict us = Ok us) \/ ((~ exists cps, text16 cps us) /\ exists e, transcode16 fuel Strict us = Throw e).
Proof.
  remember (length us) as n eqn:L. revert us L. induction n as [n IH] using (well_founded_induction lt_wf). intros us -> F fuel Lf.
  destruct us as [|u us]; [left; exists []; split; [constructor|destruct fuel; reflexivity]|].
  destruct fuel as [|fuel]; [cbn in Lf; lia|]. cbn [transcode16].
  assert (NV : (forall cp n, next16 (u :: us) <> N16 cp n) -> ~ exists cps, text16 cps (u :: us)).
  { intros H (cps & T). inversion T as [|cp c cps' us' C T' E1 E2]. specialize (H cp (length c)). rewrite <- E2, (next16_char _ _ _ C) in H. congruence. }
  pose proof (next16_spec (u :: us) ltac:(discriminate) F) as N. destruct (next16 (u :: us)) as [cp n| |] eqn:Q.
  2, 3: right; split; [apply NV; intros; discriminate|eexists; reflexivity].
  destruct N as (c & t & E & <- & C). rewrite E in *. rewrite skipn_app_exact. apply Forall_app in F. assert (Lc := char16_len _ _ C). rewrite app_length in *.
  rewrite append16_scalar by apply C. cbn [bind]. rewrite <- (char16_units _ _ C).
  destruct (IH (length t)) with (us := t) (fuel := fuel) as [(cps & T & ->)|(V & e & ->)]; auto; try tauto; try lia.
  - left. exists (cp :: cps). split; [constructor; auto|reflexivity].
  - right. split; [|eexists; reflexivity]. intros (cps & T). inversion T as [E1 E2|cp' c' cps' us' C' T' E1 E2].
    + symmetry in E2. apply app_eq_nil in E2. destruct E2 as [E2 _]. now apply char16_nonempty in C.
    + destruct (same_char16 _ _ _ _ _ _ C' C E2) as (_ & _ & ->). apply V. eauto.
Qed.
Lemma utf16to8_ok cps : Forall scalar cps -> forall fuel, (length (flat_map units_of cps) <= fuel)%nat -> utf16to8 fuel (flat_map units_of cps) = Ok (flat_map utf8_encode cps).
Proof.
  induction 1 as [|cp cps S1 F IH]; intros fuel L; cbn [flat_map] in *; [destruct fuel; reflexivity|].
  pose proof (units_of_char cp S1) as C. assert (Lc := char16_len _ _ C). rewrite app_length in L. destruct fuel as [|fuel]; [lia|].
  pose proof (next16_char cp _ (flat_map units_of cps) C) as N. destruct (units_of cp ++ flat_map units_of cps) as [|b l] eqn:E; [apply app_eq_nil in E; destruct E as [E _]; now apply char16_nonempty in C|].
  cbn [utf16to8]. rewrite N, <- E, skipn_app_exact. rewrite append8_scalar by exact S1. cbn [bind]. rewrite IH by lia. reflexivity.
Qed.
Lemma utf8to16_ok cps : Forall scalar cps -> forall fuel, (length (flat_map utf8_encode cps) <= fuel)%nat -> utf8to16 fuel (flat_map utf8_encode cps) = Ok (flat_map units_of cps).
Proof.
  induction 1 as [|cp cps S1 F IH]; intros fuel L; cbn [flat_map] in *; [destruct fuel; reflexivity|].
  pose proof (utf8_encode_char cp S1) as C. assert (Lc := char8_len _ _ C). rewrite app_length in L. destruct fuel as [|fuel]; [lia|].
  pose proof (next8_char cp _ (flat_map utf8_encode cps) C) as N. destruct (utf8_encode cp ++ flat_map utf8_encode cps) as [|b l] eqn:E; [kill_nil|].
  cbn [utf8to16]. rewrite N, <- E, skipn_app_exact. rewrite IH by lia. reflexivity.
Qed.

(** ** bytes of units *)
Lemma serial_units big us s o : serial big us s -> (o = OBE <-> big = true) -> units o s = us.
Proof.
  intros H O. induction H as [|hi lo us s B1 B2 H IH]; [reflexivity|]. destruct big.
  - assert (o = OBE) as -> by tauto. cbn [app units]. f_equal; auto.
  - destruct o; cbn [app units]; [f_equal; auto| |f_equal; auto]. destruct O as [O _]. specialize (O eq_refl). discriminate.
Qed.
Lemma serial_of big us : Forall is_unit us -> serial big us (flat_map (unit_bytes big) us).
Proof.
  induction 1 as [|u us U F IH]; [constructor|]. cbn [flat_map]. replace u with (u / 256 * 256 + u mod 256) at 1 by (Z.to_euclidean_division_equations; lia).
  unfold is_unit in U. unfold unit_bytes. apply serial_cons; auto; unfold is_byte; Z.to_euclidean_division_equations; lia.
Qed.
Lemma serial_fun big us s s' : serial big us s -> serial big us s' -> s = s'.
Proof.
  intros H. revert s'. induction H as [|hi lo us s B1 B2 H IH]; intros s' H'; inversion H'; subst; auto.
  unfold is_byte in *. assert (hi0 = hi) by lia. assert (lo0 = lo) by lia. subst. erewrite IH; eauto.
Qed.
Lemma serial_unit big us s : serial big us s -> Forall is_unit us.
Proof. induction 1; constructor; auto. unfold is_byte, is_unit in *. lia. Qed.
Lemma serial_even big us s : serial big us s -> length s = (2 * length us)%nat.
Proof. induction 1; [reflexivity|]. rewrite app_length. destruct big; cbn [length] in *; lia. Qed.
Lemma serial_exists big s : Forall is_byte s -> (length s mod 2 = 0)%nat -> exists us, serial big us s.
Proof.
  intros F E. assert (exists k, length s = (2 * k)%nat) as (k & L). { exists (length s / 2)%nat. pose proof (Nat.div_mod (length s) 2). lia. }
  clear E. revert s F L. induction k as [|k IH]; intros s F L.
  - destruct s; [exists []; constructor|cbn in L; lia].
  - destruct s as [|a [|b s]]; cbn in L; try lia. inversion F as [|? ? A F']; subst. inversion F' as [|? ? B F'']; subst.
    destruct (IH s F'') as (us & S1); [lia|]. destruct big.
    + exists (a * 256 + b :: us). apply (serial_cons true a b us s A B S1).
    + exists (b * 256 + a :: us). apply (serial_cons false b a us s B A S1).
Qed.

(** the first unit is no byte order mark in either order *)
Definition no_bom (us : list Z) : Prop := match us with u :: _ => u <> 65279 /\ u <> 65534 | [] => True end.
Lemma order_units cs us s : (cs = UTF16LE \/ cs = UTF16BE) -> serial (is_big cs) us s -> (cs = UTF16BE -> no_bom us) -> units (choose_order cs s) s = us.
Proof.
  intros CS S1 NB. apply (serial_units (is_big cs)); [exact S1|]. unfold choose_order.
  destruct CS as [-> | ->]; cbn [is_big] in *.
  - destruct (negb _ && negb _); split; discriminate.
  - specialize (NB eq_refl). replace (negb (prefixb [255; 254] s) && negb (prefixb [254; 255] s)) with true; [tauto|].
    inversion S1; subst; [reflexivity|]. cbn [no_bom] in NB. unfold is_byte in *. cbn [app prefixb].
    cbn [prefixb]. destruct (Z.eqb_spec 255 hi), (Z.eqb_spec 254 lo), (Z.eqb_spec 254 hi), (Z.eqb_spec 255 lo); cbn; try reflexivity; lia.
Qed.

Lemma decode16_eq cs st us s : (cs = UTF16LE \/ cs = UTF16BE) -> serial (is_big cs) us s -> (cs = UTF16BE -> no_bom us) ->
  decode16 cs st s = wrap (let* t := transcode16 (length us) st us in utf16to8 (length t) t).
Proof.
  intros CS S1 NB. pose proof (order_units cs us s CS S1 NB) as U. destruct s as [|b s].
  - inversion S1; subst; [reflexivity|]. destruct (is_big cs); discriminate.
  - unfold decode16. rewrite U. reflexivity.
Qed.
Lemma wrap_wrap {A} (r : res A) : wrap (wrap r) = wrap r.
Proof. destruct r; reflexivity. Qed.
Lemma decode_even cs st us s : (cs = UTF16LE \/ cs = UTF16BE) -> serial (is_big cs) us s -> (cs = UTF16BE -> no_bom us) ->
  bytes_decode s cs st = wrap (let* t := transcode16 (length us) st us in utf16to8 (length t) t).
Proof.
  intros CS S1 NB. pose proof (decode16_eq cs st us s CS S1 NB) as D. pose proof (serial_even _ _ _ S1) as L.
  destruct s as [|b s]; [cbn in D; rewrite <- D; reflexivity|].
  assert (E : (length (b :: s) mod 2 =? 0)%nat = true). { rewrite L. apply Nat.eqb_eq. rewrite Nat.mul_comm. apply Nat.mod_mul. lia. }
  unfold bytes_decode. rewrite E. destruct CS as [-> | ->]; rewrite D; apply wrap_wrap.
Qed.

Lemma mark16_scalar st : Forall scalar (mark16 st).
Proof. destruct st; repeat constructor; lia. Qed.
Lemma decode16_exact cs st us s r : (cs = UTF16LE \/ cs = UTF16BE) -> st <> Strict -> serial (is_big cs) us s -> (cs = UTF16BE -> no_bom us) ->
  (bytes_decode s cs st = Ok r <-> exists cps, repaired16 (mark16 st) us cps [] /\ text8 cps r).
Proof.
  intros CS NS S1 NB. rewrite (decode_even cs st us s CS S1 NB). pose proof (serial_unit _ _ _ S1) as F.
  destruct (repaired16_total (mark16 st) us F) as (cps & stop & R). rewrite (transcode16_repaired st us NS F cps stop R) by lia.
  pose proof (repaired16_scalar _ _ _ _ (mark16_scalar st) R) as SC. destruct stop as [|x stop].
  - cbn [bind]. rewrite utf16to8_ok by auto. cbn [wrap]. split.
    + intros E. replace r with (flat_map utf8_encode cps) by congruence. exists cps. split; [exact R|]. apply text8_of, SC.
    + intros (cps' & R' & T). destruct (repaired16_fun _ _ F _ _ _ _ R R') as (-> & _). apply text8_encode in T. destruct T as [-> _]. reflexivity.
  - cbn. split; [discriminate|]. intros (cps' & R' & T). destruct (repaired16_fun _ _ F _ _ _ _ R R') as (_ & Q). discriminate.
Qed.
Lemma decode16_strict cs us s r : (cs = UTF16LE \/ cs = UTF16BE) -> serial (is_big cs) us s -> (cs = UTF16BE -> no_bom us) ->
  (bytes_decode s cs Strict = Ok r <-> exists cps, text16 cps us /\ text8 cps r).
Proof.
  intros CS S1 NB. rewrite (decode_even cs Strict us s CS S1 NB). pose proof (serial_unit _ _ _ S1) as F.
  destruct (transcode16_strict us F (length us) (le_n _)) as [(cps & T & ->)|(V & e & ->)].
  - cbn [bind]. pose proof (text16_units _ _ T) as [E SC]. assert (A0 : utf16to8 (length us) us = Ok (flat_map utf8_encode cps)) by (rewrite E; apply utf16to8_ok; auto). rewrite A0. cbn [wrap]. split.
    + intros Q. replace r with (flat_map utf8_encode cps) by congruence. exists cps. split; [exact T|]. apply text8_of, SC.
    + intros (cps' & T' & T8). 
      assert (cps = cps'). { pose proof (utf16to8_ok cps SC _ (le_n _)) as A. apply text16_units in T'. destruct T' as [E' SC']. pose proof (utf16to8_ok cps' SC' _ (le_n _)) as B.
        assert (flat_map utf8_encode cps = flat_map utf8_encode cps') by congruence.
        apply (text8_fun cps cps' (flat_map utf8_encode cps)); [apply text8_of, SC|rewrite H; apply text8_of, SC']. }
      subst. apply text8_encode in T8. destruct T8 as [-> _]. reflexivity.
  - cbn. split; [discriminate|]. intros (cps' & T & _). exfalso. eauto.
Qed.
Lemma decode16_throws cs st us s : (cs = UTF16LE \/ cs = UTF16BE) -> serial (is_big cs) us s -> (cs = UTF16BE -> no_bom us) ->
  (forall r, bytes_decode s cs st <> Ok r) -> bytes_decode s cs st = Throw RuntimeError.
Proof.
  intros CS S1 NB. rewrite (decode_even cs st us s CS S1 NB). pose proof (serial_unit _ _ _ S1) as F. intros N.
  destruct (strategy_eq st) as [-> | NS].
  - destruct (transcode16_strict us F (length us) (le_n _)) as [(cps & T & E)|(V & e & E)]; rewrite E in *; cbn [bind] in *.
    + pose proof (text16_units _ _ T) as [Eu SC]. assert (A0 : utf16to8 (length us) us = Ok (flat_map utf8_encode cps)) by (rewrite Eu; apply utf16to8_ok; auto). rewrite A0 in N. exfalso. exact (N _ eq_refl).
    + reflexivity.
  - destruct (repaired16_total (mark16 st) us F) as (cps & stop & R). rewrite (transcode16_repaired st us NS F cps stop R) in * by lia.
    pose proof (repaired16_scalar _ _ _ _ (mark16_scalar st) R) as SC. destruct stop as [|x stop]; cbn [bind] in *; [|reflexivity].
    rewrite utf16to8_ok in N by auto. exfalso. exact (N _ eq_refl).
Qed.

(** an odd number of bytes *)
Lemma decode_odd cs st s b : (cs = UTF16LE \/ cs = UTF16BE) -> (length s mod 2 = 0)%nat ->
  bytes_decode (s ++ [b]) cs st =
  match st with
  | Strict => Throw RuntimeError
  | Ignore => bytes_decode s cs Ignore
  | Replace => let* d := bytes_decode s cs Replace in Ok (d ++ fffd)
  | NoStrategy => bytes_decode (s ++ [b]) cs NoStrategy
  end.
Proof.
  intros CS E. destruct (s ++ [b]) as [|x l] eqn:Q; [now apply app_eq_nil in Q|].
  assert (L : length (x :: l) = S (length s)) by (rewrite <- Q, app_length; cbn; lia).
  assert (O : (length (x :: l) mod 2 =? 0)%nat = false).
  { rewrite L. apply Nat.eqb_neq. pose proof (Nat.div_mod (length s) 2). pose proof (Nat.div_mod (S (length s)) 2). pose proof (Nat.mod_upper_bound (S (length s)) 2). lia. }
  assert (T : firstn (length (x :: l) / 2 * 2) (x :: l) = s).
  { rewrite L. replace (S (length s) / 2 * 2)%nat with (length s).
    - rewrite <- Q, firstn_app, firstn_all, Nat.sub_diag, app_nil_r. reflexivity.
    - apply Nat.eqb_neq in O. rewrite L in O. pose proof (Nat.div_mod (length s) 2). pose proof (Nat.div_mod (S (length s)) 2). pose proof (Nat.mod_upper_bound (S (length s)) 2). lia. }
  assert (D : forall st', bytes_decode s cs st' = wrap (decode16 cs st' s)).
  { intros st'. destruct s as [|y s]; [reflexivity|]. unfold bytes_decode. apply Nat.eqb_eq in E. rewrite E. destruct CS as [-> | ->]; reflexivity. }
  assert (W : forall st', wrap (decode16 cs st' s) = decode16 cs st' s).
  { intros st'. destruct s; [reflexivity|]. unfold decode16. apply wrap_wrap. }
  assert (EQ : bytes_decode (x :: l) cs st = wrap match st with
                  | Strict => Throw RuntimeError
                  | Ignore => decode16 cs st s
                  | Replace => let* d := decode16 cs st s in let* a := append8 replacement in Ok (d ++ a)
                  | NoStrategy => decode16 cs st (x :: l)
                  end).
  { transitivity (wrap (if (length (x :: l) mod 2 =? 0)%nat then decode16 cs st (x :: l)
             else match st with
                  | Strict => Throw RuntimeError
                  | Ignore => decode16 cs st (firstn (length (x :: l) / 2 * 2) (x :: l))
                  | Replace => let* d := decode16 cs st (firstn (length (x :: l) / 2 * 2) (x :: l)) in let* a := append8 replacement in Ok (d ++ a)
                  | NoStrategy => decode16 cs st (x :: l)
                  end)).
    - destruct CS as [-> | ->]; reflexivity.
    - rewrite O, T. reflexivity. }
  destruct st; try reflexivity; rewrite EQ.
  - symmetry. apply D.
  - rewrite D. destruct (decode16 cs Replace s); reflexivity.
  - reflexivity.
Qed.

(** ** encode *)
Lemma encode16_eq cs st s : (cs = UTF16LE \/ cs = UTF16BE) ->
  string_encode s cs st = wrap (let* t8 := string_encode s UTF8 st in let* t := utf8to16 (length t8) t8 in Ok (flat_map (unit_bytes (is_big cs)) t)).
Proof. intros CS. rewrite encode8. destruct s; [destruct CS as [-> | ->]; reflexivity|]. destruct CS as [-> | ->]; reflexivity. Qed.
Lemma encode16_exact cs st s r : (cs = UTF16LE \/ cs = UTF16BE) -> Forall is_byte s ->
  (string_encode s cs st = Ok r <-> exists t cps us, string_encode s UTF8 st = Ok t /\ text8 cps t /\ text16 cps us /\ serial (is_big cs) us r).
Proof.
  intros CS F. rewrite (encode16_eq cs st s CS). assert (V : forall t, string_encode s UTF8 st = Ok t -> valid8 t).
  { intros t E. rewrite encode8, <- decode8 in E. eapply decode8_valid; eauto. }
  destruct (string_encode s UTF8 st) as [t|e|] eqn:E.
  - destruct (V t eq_refl) as (cps & T). cbn [bind]. pose proof (text8_encode _ _ T) as [Et SC]. assert (A0 : utf8to16 (length t) t = Ok (flat_map units_of cps)) by (rewrite Et; apply utf8to16_ok; auto). rewrite A0. cbn [bind wrap].
    assert (S1 : serial (is_big cs) (flat_map units_of cps) (flat_map (unit_bytes (is_big cs)) (flat_map units_of cps))) by (apply serial_of, (text16_unit cps), text16_of, SC).
    split.
    + intros Q. replace r with (flat_map (unit_bytes (is_big cs)) (flat_map units_of cps)) by congruence.
      exists t, cps, (flat_map units_of cps). repeat split; auto. apply text16_of, SC.
    + intros (t' & cps' & us & E' & T' & T16 & S2). assert (t' = t) by congruence. subst t'. assert (cps' = cps) by (eapply text8_fun; eauto). subst cps'.
      apply text16_units in T16. destruct T16 as [-> _]. rewrite (serial_fun _ _ _ _ S2 S1). reflexivity.
  - cbn. split; [discriminate|]. intros (t & ? & ? & Q & _). discriminate.
  - cbn. split; [discriminate|]. intros (t & ? & ? & Q & _). discriminate.
Qed.
