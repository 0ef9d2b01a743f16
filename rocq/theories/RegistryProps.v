(** C23: parser lookup; C58: connecting parsers to a sink by MIME type. *)
From Verif Require Import Base StrModel StrSpec StrProofs MimeModel MimeProps PortModel RegistryModel RegistrySpec.

(** The parsers registered under a name according to the specification. *)
Definition under (rs : list (bytes * parser)) (n : bytes) : list parser :=
  map snd (filter (fun x => bytes_eqb n (fst x)) rs).

Lemma under_app a b n : under (a ++ b) n = under a n ++ under b n.
Proof. unfold under. rewrite filter_app, map_app. reflexivity. Qed.

Lemma push_under m k p n : push m k p n = m n ++ under [(k, p)] n.
Proof.
  unfold push, under. cbn. destruct (bytes_eqb n k); [reflexivity|]. cbn. rewrite app_nil_r. reflexivity.
Qed.

Lemma under_cons k p r n : under ((k, p) :: r) n = under [(k, p)] n ++ under r n.
Proof. change ((k, p) :: r) with ([(k, p)] ++ r). apply under_app. Qed.

Lemma add_port_under p m x n : add_port p m x n = m n ++ under (map (fun k => (k, p)) (port_names x)) n.
Proof.
  destruct x as [q d]. unfold add_port, port_names. cbn [fst snd].
  destruct d; cbn [map]; rewrite ?push_under; unfold s_orig, s_resp; rewrite ?(under_cons _ _ [_]), ?(under_cons _ _ (_ :: _)), ?app_assoc; try reflexivity.
  cbn. rewrite app_nil_r. reflexivity.
Qed.

Lemma add_ports_under p l : forall m n, fold_left (add_port p) l m n = m n ++ under (map (fun k => (k, p)) (flat_map port_names l)) n.
Proof.
  induction l as [|x l IH]; intros m n; cbn [fold_left flat_map map]; [cbn; rewrite app_nil_r; reflexivity|].
  rewrite IH, add_port_under, map_app, under_app, app_assoc. reflexivity.
Qed.

(** MIME keys for the specification: what is registered for MIME lookups. *)
Definition spec_key (m : mime) : bytes :=
  if bytes_eqb (mmain m) star then [] else if bytes_eqb (msub m) star then mmain m else mmain m ++ [47%Z] ++ msub m.

Lemma valid_string m : valid_mime m -> mime_string m = Ok (mmain m ++ [47%Z] ++ msub m).
Proof. intros [A B]. unfold mime_string, main_type, sub_type, ensure_valid. destruct (mmain m), (msub m); congruence || reflexivity. Qed.
Lemma valid_key m : valid_mime m -> as_key m = Ok (spec_key m).
Proof.
  intros V. pose proof (valid_string m V) as R. destruct V as [A B]. unfold as_key, spec_key. rewrite R. unfold ensure_valid.
  destruct (mmain m), (msub m); try congruence. cbn [bind]. destruct (bytes_eqb _ star); [reflexivity|]. destruct (bytes_eqb _ star); reflexivity.
Qed.

Lemma add_mimes_ok p l : Forall valid_mime l -> forall m t, exists m' t', add_mimes p l m t = Ok (m', t') /\
  (forall n, m' n = m n ++ under (map (fun k => (k, p)) (flat_map mime_names l)) n) /\
  (forall k, t' k = t k ++ under (map (fun x => (spec_key x, p)) l) k).
Proof.
  induction 1 as [|x l V F IH]; intros m t; cbn [add_mimes].
  - exists m, t. split; [reflexivity|]. split; intros; cbn; rewrite app_nil_r; reflexivity.
  - rewrite (valid_string x V), (valid_key x V). cbn [bind].
    set (m1 := if is_wildcard x then m else push m (mmain x ++ [47%Z] ++ msub x) p).
    assert (E1 : (if is_wildcard x then Ok m else Ok (push m (mmain x ++ [47%Z] ++ msub x) p)) = Ok m1)
      by (unfold m1; destruct (is_wildcard x); reflexivity).
    rewrite E1. cbn [bind]. destruct (IH m1 (push t (spec_key x) p)) as (m' & t' & E & Hm & Ht).
    exists m', t'. split; [exact E|]. split.
    + intros n. rewrite Hm. cbn [flat_map]. rewrite map_app, under_app, app_assoc. f_equal.
      unfold m1, is_wildcard, mime_names. unfold star. destruct (_ || _); cbn [map]; [rewrite app_nil_r; reflexivity|].
      apply push_under.
    + intros k. rewrite Ht, push_under. cbn [map]. rewrite (under_cons _ _ (map _ l)), app_assoc. reflexivity.
Qed.

(** The default parser as the code computes it. *)
Fixpoint toggle (l : list parser) (d : option parser) : option parser :=
  match l with
  | [] => d
  | p :: r => toggle r (if ppublic p then match d with None => Some p | Some _ => None end else d)
  end.

Lemma init_loop_ok l : Forall valid_parser l -> forall m t d, exists m' t',
  init_loop l m t d = Ok (m', t', toggle l d) /\
  (forall n, m' n = m n ++ under (flat_map (fun p => map (fun k => (k, p)) (own_names p)) l) n) /\
  (forall k, t' k = t k ++ under (flat_map (fun p => map (fun x => (spec_key x, p)) (pmimes p)) l) k).
Proof.
  induction 1 as [|p l V F IH]; intros m t d; cbn [init_loop toggle].
  - exists m, t. split; [reflexivity|]. split; intros; cbn; rewrite app_nil_r; reflexivity.
  - set (m2 := fold_left (add_port p) (pports p) (push m (pname p) p)).
    destruct (add_mimes_ok p (pmimes p) V m2 t) as (m3 & t3 & E & Hm & Ht). rewrite E. cbn [bind fst snd].
    destruct (IH m3 t3 (if ppublic p then match d with None => Some p | Some _ => None end else d)) as (m' & t' & E' & Hm' & Ht').
    exists m', t'. split; [exact E'|]. split.
    + intros n. rewrite Hm', Hm. unfold m2. rewrite add_ports_under, push_under. unfold own_names. cbn [flat_map map].
      rewrite map_app, (under_app (_ :: _)), (under_cons _ _ (_ ++ _)), (under_app (map _ _)), !app_assoc. reflexivity.
    + intros k. rewrite Ht', Ht. cbn [flat_map]. rewrite under_app, app_assoc. reflexivity.
Qed.

Lemma register_all ps : forall g, inited g = false -> let g' := fold_left register ps g in
  parsers g' = parsers g ++ ps /\ by_name g' = by_name g /\ by_mime g' = by_mime g /\ inited g' = false.
Proof.
  induction ps as [|p ps IH]; intros g H; cbn [fold_left]; cbv zeta; [rewrite app_nil_r; auto|].
  destruct (IH (register g p) H) as (A & B & C & D). rewrite A. cbn. rewrite <- app_assoc. auto.
Qed.

Lemma find_first_existsb c a : find_first (Z.eqb c) a = None <-> existsb (Z.eqb c) a = false.
Proof.
  induction a as [|x a IH]; cbn; [tauto|]. destruct (Z.eqb c x); cbn; [split; discriminate|].
  rewrite <- IH. destruct (find_first (Z.eqb c) a); cbn; split; congruence.
Qed.

Lemma aliases_ok als : forall g, let g' := run_aliases g als in
  parsers g' = parsers g /\ by_mime g' = by_mime g /\ default_parser g' = default_parser g /\
  forall n, by_name g' n = by_name g n ++ under (flat_map (fun x => match alias_target (parsers g) x with
                     | Some p => map (fun n => (n, p)) (alias_names (snd x)) | None => [] end) als) n.
Proof.
  induction als as [|[pn a] als IH]; intros g; cbv zeta; cbn [run_aliases].
  - repeat split. intros n. cbn. rewrite app_nil_r. reflexivity.
  - unfold register_alias, alias_target at 1. cbn [fst snd flat_map].
    assert (Skip : let g' := run_aliases g als in parsers g' = parsers g /\ by_mime g' = by_mime g /\ default_parser g' = default_parser g /\
      forall n, by_name g' n = by_name g n ++ under ([] ++ flat_map (fun x => match alias_target (parsers g) x with
                     | Some p => map (fun n => (n, p)) (alias_names (snd x)) | None => [] end) als) n) by exact (IH g).
    destruct pn as [|c pn]; [exact Skip|]. destruct a as [|c' a]; [exact Skip|].
    destruct (find _ (parsers g)) as [p|] eqn:Ef; [|exact Skip]. clear Skip.
    set (g1 := mkG _ _ _ _ _). destruct (IH g1) as (A & B & C & D). cbv zeta in *.
    split; [exact A|]. split; [exact B|]. split; [exact C|]. intros n. rewrite D. change (parsers g1) with (parsers g).
    rewrite (under_app (map _ _)), app_assoc. f_equal. unfold g1. cbn [by_name]. unfold alias_names.
    destruct (find_first (Z.eqb 37) (c' :: a)) eqn:E.
    + destruct (existsb (Z.eqb 37) (c' :: a)) eqn:E2; [|apply find_first_existsb in E2; congruence].
      rewrite push_under. reflexivity.
    + apply find_first_existsb in E. rewrite E. rewrite !push_under. cbn [map].
      rewrite (under_cons _ _ (_ :: _)), (under_cons _ _ [_]), !app_assoc. reflexivity.
Qed.

Lemma setup_ok ps als : Forall valid_parser ps -> exists g, setup ps als = Ok g /\ parsers g = ps /\
  default_parser g = toggle ps None /\
  (forall n, by_name g n = under (registrations ps als) n) /\
  (forall k, by_mime g k = under (flat_map (fun p => map (fun x => (spec_key x, p)) (pmimes p)) ps) k).
Proof.
  intros F. unfold setup, init. destruct (register_all ps ginit eq_refl) as (A & B & C & D). cbv zeta in *.
  rewrite A, B, C, D. cbn [app parsers ginit by_name by_mime].
  destruct (init_loop_ok ps F (fun _ => []) (fun _ => []) None) as (m & t & E & Hm & Ht). rewrite E. cbn [bind].
  eexists. split; [reflexivity|]. destruct (aliases_ok als (mkG ps m t (toggle ps None) true)) as (P & M & Df & N). cbv zeta in *.
  split; [exact P|]. split; [exact Df|]. split.
  - intros n. rewrite N. cbn [by_name parsers]. rewrite Hm. unfold registrations. rewrite under_app. reflexivity.
  - intros k. rewrite M. cbn [by_mime]. rewrite Ht. reflexivity.
Qed.

(** C23. With a non-empty name: the result is parser [p] exactly if there is any public parser at all and the name is
    registered exactly once, for [p] (and [p] has the linker scope asked for, if one is given). Otherwise lookup reports an
    error; it never picks one of several. *)
Theorem C23_lookup_by_name : forall ps als, Forall valid_parser ps ->
  exists g, setup ps als = Ok g /\
  forall n scope p, n <> [] ->
    (lookup_parser g n scope = Some p <->
     (exists q, In q ps /\ ppublic q = true) /\
     (exists l1 l2, registrations ps als = l1 ++ (n, p) :: l2 /\ (forall q, ~ In (n, q) l1 /\ ~ In (n, q) l2)) /\
     (scope = None \/ scope = Some (pscope p))).
Proof.
  intros ps als F. destruct (setup_ok ps als F) as (g & E & P & _ & N & _). exists g. split; [exact E|].
  intros n scope p Hn. unfold lookup_parser. rewrite P.
  assert (U : forall rs q, under rs n = [q] <-> exists l1 l2, rs = l1 ++ (n, q) :: l2 /\ (forall x, ~ In (n, x) l1 /\ ~ In (n, x) l2)).
  { intros rs q.
    assert (Nil : forall r, under r n = [] <-> forall x, ~ In (n, x) r).
    { unfold under. induction r as [|[k x] r IH]; cbn; [tauto|]. destruct (bytes_eqb n k) eqn:Ek.
      - apply bytes_eqb_spec in Ek. subst k. cbn. split; [discriminate|]. intros H. exfalso. apply (H x). left. reflexivity.
      - rewrite IH. split; intros H y I; [destruct I as [I|I]; [|exact (H y I)]|apply (H y); right; exact I].
        injection I as Ek2 _. subst k. assert (bytes_eqb n n = true) by (apply bytes_eqb_spec; reflexivity). congruence. }
    induction rs as [|[k x] rs IH].
    - cbn. split; [discriminate|]. intros (l1 & l2 & Er & _). destruct l1; discriminate.
    - rewrite under_cons. unfold under at 1. cbn [filter fst]. destruct (bytes_eqb n k) eqn:Ek.
      + apply bytes_eqb_spec in Ek. subst k. cbn [map snd app]. split.
        * intros [= -> Er]. exists [], rs. split; [reflexivity|]. intros y. split; [tauto|]. apply Nil. exact Er.
        * intros (l1 & l2 & Er & H). destruct l1 as [|y l1].
          -- injection Er as -> ->. f_equal. apply Nil. intros y. apply H.
          -- injection Er as <- ->. exfalso. apply (proj1 (H x)). left. reflexivity.
      + cbn [map app]. rewrite IH. split; intros (l1 & l2 & Er & H).
        * exists ((k, x) :: l1), l2. rewrite Er. split; [reflexivity|]. intros y. split; [|apply H]. intros [I|I].
          -- injection I as Ek2 _. subst k. assert (bytes_eqb n n = true) by (apply bytes_eqb_spec; reflexivity). congruence.
          -- exact (proj1 (H y) I).
        * destruct l1 as [|y l1].
          -- injection Er as Ek2 _ _. subst k. assert (bytes_eqb n n = true) by (apply bytes_eqb_spec; reflexivity). congruence.
          -- injection Er as <- Er. exists l1, l2. split; [exact Er|]. intros z. split; [|apply H]. intros I. apply (proj1 (H z)). right. exact I. }
  assert (Pub : existsb ppublic ps = true <-> exists q, In q ps /\ ppublic q = true) by apply existsb_exists.
  rewrite <- Pub. destruct (existsb ppublic ps); cbn [negb].
  2: { split; [discriminate|intros [H _]; discriminate]. }
  destruct n as [|c n]; [congruence|]. rewrite N. rewrite <- U.
  destruct (under (registrations ps als) (c :: n)) as [|x [|y r]].
  - split; [discriminate|intros (_ & H & _); discriminate].
  - destruct scope as [s|].
    + destruct (Z.eqb_spec (pscope x) s) as [<-|Ns].
      * split; [intros [= <-]; auto|intros (_ & [= <-] & _); reflexivity].
      * split; [discriminate|]. intros (_ & [= <-] & [H|H]); [discriminate|]. injection H as ->. congruence.
    + split; [intros [= <-]; auto|intros (_ & [= <-] & _); reflexivity].
  - split; [discriminate|intros (_ & H & _); discriminate].
Qed.

(** Number of public parsers. *)
Definition publics (ps : list parser) : list parser := filter ppublic ps.

Lemma toggle_publics ps : forall d, toggle ps d = fold_left (fun d p => match d with None => Some p | Some _ => None end) (publics ps) d.
Proof. unfold publics. induction ps as [|p ps IH]; intros d; cbn; [reflexivity|]. rewrite IH. destruct (ppublic p); reflexivity. Qed.

(** C23. The empty name: with exactly one public parser, that parser; with none or an even number of public parsers an error;
    with any other odd number the public parser registered last. *)
Theorem C23_default : forall ps als, Forall valid_parser ps ->
  exists g, setup ps als = Ok g /\
  forall scope,
    (forall p, publics ps = [p] -> lookup_parser g [] scope = Some p) /\
    (Nat.Even (length (publics ps)) -> lookup_parser g [] scope = None) /\
    (forall front p, publics ps = front ++ [p] -> Nat.Even (length front) -> lookup_parser g [] scope = Some p).
Proof.
  intros ps als F. destruct (setup_ok ps als F) as (g & E & P & D & _). exists g. split; [exact E|].
  intros scope. unfold lookup_parser. rewrite P, D, toggle_publics.
  assert (Pub : negb (existsb ppublic ps) = true <-> publics ps = []).
  { unfold publics. clear. induction ps as [|p ps IH]; cbn; [tauto|]. destruct (ppublic p); cbn; [split; discriminate|exact IH]. }
  assert (Even : forall (k : nat) l, length l = (2 * k)%nat -> fold_left (fun d (p : parser) => match d with None => Some p | Some _ => None end) l None = None).
  { clear. induction k as [|k IH]; intros l H; [destruct l; [reflexivity|discriminate]|].
    destruct l as [|a [|b l]]; cbn in H; try lia. cbn. apply IH. lia. }
  assert (Odd : forall front p, publics ps = front ++ [p] -> Nat.Even (length front) ->
    (if negb (existsb ppublic ps) then None else fold_left (fun d (p : parser) => match d with None => Some p | Some _ => None end) (publics ps) None) = Some p).
  { intros front p Hp [k Hk]. destruct (negb (existsb ppublic ps)) eqn:N.
    - rewrite (proj1 Pub eq_refl) in Hp. destruct front; discriminate.
    - rewrite Hp, fold_left_app, (Even _ _ Hk). reflexivity. }
  split; [|split].
  - intros p Hp. apply (Odd [] p Hp). exists 0%nat. reflexivity.
  - intros [k Hk]. rewrite (Even _ _ Hk). destruct (negb _); reflexivity.
  - exact Odd.
Qed.

(** C23 fails for the empty name: the loop in init() clears the default at the second public parser but sets it again at the
    third, so with three public parsers the empty name silently selects the last one. *)
Definition simple (i : nat) (n : bytes) (sc : Z) : parser := mkParser i n true sc [] [] true.
Theorem C23_default_refuted : exists ps g p, setup ps [] = Ok g /\ length (publics ps) = 3%nat /\
  lookup_parser g [] None = Some p.
Proof.
  exists [simple 0 [97%Z] 0; simple 1 [98%Z] 0; simple 2 [99%Z] 0]%Z.
  eexists; eexists. split; [reflexivity|]. split; [reflexivity|]. reflexivity.
Qed.

(** The documented meaning of the linker scope ("only parsers with matching scopes are considered") does not hold: with two
    parsers of the same name in different scopes, the lookup fails for either scope. *)
Theorem C23_scope_refuted : exists ps g n p, setup ps [] = Ok g /\
  filter (fun q => bytes_eqb (pname q) n && Z.eqb (pscope q) 1) ps = [p] /\ lookup_parser g n (Some 1%Z) = None.
Proof.
  exists [simple 0 [97%Z] 1; simple 1 [97%Z] 2]%Z. eexists; exists [97%Z]; eexists.
  split; [reflexivity|]. split; [reflexivity|]. reflexivity.
Qed.

(** A registry with two public and one private parser, ports, MIME types and aliases. *)
Definition http : parser := mkParser 0 [72%Z] true 1 [(mkPort 80 PTCP, DBoth)] [mkMime [97%Z] [98%Z]] true.
Definition dns : parser := mkParser 1 [68%Z] true 1 [(mkPort 53 PUDP, DOrig)] [mkMime [97%Z] star] true.
Definition priv : parser := mkParser 2 [80%Z] false 2 [] [mkMime star star] true.
Example C23_sample_valid : Forall valid_parser [http; dns; priv].
Proof. repeat constructor; discriminate. Qed.
Example C23_sample : exists g, setup [http; dns; priv] [([72%Z], [120%Z]); ([88%Z], [121%Z])] = Ok g /\
  lookup_parser g [120%Z] None = Some http /\ lookup_parser g [121%Z] None = None /\
  lookup_parser g [56; 48; 47; 116; 99; 112]%Z None = Some http /\ lookup_parser g [97; 47; 98]%Z (Some 1%Z) = Some http /\
  lookup_parser g [80%Z] (Some 2%Z) = Some priv /\ lookup_parser g [] None = None.
Proof. eexists. split; [reflexivity|]. vm_compute. repeat split. Qed.

Lemma in_under rs n p : In p (under rs n) <-> In (n, p) rs.
Proof.
  unfold under. rewrite in_map_iff. split.
  - intros ([k q] & <- & H). apply filter_In in H. cbn in *. destruct H as [H E]. apply bytes_eqb_spec in E. subst k. exact H.
  - intros H. exists (n, p). split; [reflexivity|]. apply filter_In. split; [exact H|]. apply bytes_eqb_spec. reflexivity.
Qed.

(** C58. Connecting by a (parsed) MIME type connects exactly the parsers that support sinks, are public or in the given
    scope, and declare a matching type, provided parsers declare types that were parsed. *)
Theorem C58_connects_exactly_matching : forall ps als, Forall (fun p => Forall parsed (pmimes p)) ps ->
  exists g, setup ps als = Ok g /\
  forall mt scope, parsed mt -> exists l, connect_mime_type g mt scope = Ok l /\
  forall p, In p l <-> In p ps /\ psink p = true /\ (ppublic p = true \/ pscope p = scope) /\
                       exists d, In d (pmimes p) /\ mime_matches mt d.
Proof.
  intros ps als F.
  assert (Pv : forall m, parsed m -> valid_mime m).
  { intros m H. apply parsed_iff in H. destruct H as ((A & _) & _ & (B & _)). split; assumption. }
  assert (Fv : Forall valid_parser ps).
  { eapply Forall_impl; [|exact F]. intros p H. eapply Forall_impl; [|exact H]. apply Pv. }
  destruct (setup_ok ps als Fv) as (g & E & _ & _ & _ & M). exists g. split; [exact E|].
  intros mt scope Pm.
  assert (Pms : parsed (mkMime (mmain mt) star)).
  { apply parsed_iff. apply parsed_iff in Pm. destruct Pm as (A & B & _). cbn. split; [exact A|]. split; [exact B|]. apply star_name. }
  assert (Pss : parsed (mkMime star star)) by (exists star; reflexivity).
  unfold connect_mime_type, connect_matching. rewrite (valid_key mt (Pv _ Pm)). cbn [bind].
  replace (main_type mt) with (Ok (mmain mt)) by (unfold main_type, ensure_valid; destruct (Pv _ Pm) as [A B]; destruct (mmain mt), (msub mt); congruence || reflexivity).
  cbn [bind]. rewrite (valid_key _ (Pv _ Pms)). cbn [bind]. rewrite (valid_key _ (Pv _ Pss)). cbn [bind].
  eexists. split; [reflexivity|]. intros p.
  assert (Q : forall m, parsed m -> In p (filter (fun p => (ppublic p || Z.eqb (pscope p) scope) && psink p) (by_mime g (spec_key m))) <->
     In p ps /\ psink p = true /\ (ppublic p = true \/ pscope p = scope) /\ exists d, In d (pmimes p) /\ spec_key d = spec_key m).
  { intros m _. rewrite filter_In, M, in_under, in_flat_map. split.
    - intros ((q & I & J) & B). apply in_map_iff in J. destruct J as (d & J & K). injection J as J <-.
      apply andb_true_iff in B. destruct B as [B1 B2]. apply orb_true_iff in B1. rewrite Z.eqb_eq in B1.
      split; [exact I|]. split; [exact B2|]. split; [exact B1|]. exists d. auto.
    - intros (I & S1 & B & d & K & J). split.
      + exists p. split; [exact I|]. apply in_map_iff. exists d. rewrite J. auto.
      + rewrite S1, andb_true_r. apply orb_true_iff. rewrite Z.eqb_eq. exact B. }
  assert (Kx : forall d m, parsed d -> parsed m -> (spec_key d = spec_key m <->
     (mmain d = star /\ mmain m = star) \/ (mmain d = mmain m /\ msub d = star /\ msub m = star) \/ d = m)).
  { intros d m Pd Pm'. destruct (C54_key_exact d m Pd Pm') as (k & k' & K1 & K2 & K3).
    rewrite (valid_key d (Pv _ Pd)) in K1. rewrite (valid_key m (Pv _ Pm')) in K2. injection K1 as <-. injection K2 as <-. exact K3. }
  rewrite !in_app_iff, !Q by assumption. clear Q.
  assert (Pd : forall d, In p ps -> In d (pmimes p) -> parsed d).
  { intros d I J. rewrite Forall_forall in F. specialize (F p I). rewrite Forall_forall in F. exact (F d J). }
  unfold mime_matches. split.
  - intros [H|[H|H]]; destruct H as (I & S1 & B & d & J & K); apply Kx in K; auto;
      (split; [exact I|split; [exact S1|split; [exact B|exists d; split; [exact J|]]]]); cbn [mmain msub] in K; unfold star in K.
    + destruct K as [[K _]|[(K1 & K2 & _)|K]]; auto.
    + destruct K as [[K _]|[(K1 & K2 & _)|K]]; auto. subst d. cbn. auto.
    + destruct K as [[K _]|[(K1 & K2 & _)|K]]; auto. subst d. cbn. auto.
  - intros (I & S1 & B & d & J & [K|[[K1 K2]|K]]).
    + left. split; [exact I|split; [exact S1|split; [exact B|exists d; split; [exact J|congruence]]]].
    + right. left. split; [exact I|split; [exact S1|split; [exact B|exists d; split; [exact J|]]]].
      apply Kx; [eauto|exact Pms|]. right. left. cbn. auto.
    + right. right. split; [exact I|split; [exact S1|split; [exact B|exists d; split; [exact J|]]]].
      apply Kx; [eauto|exact Pss|]. left. auto.
Qed.

Lemma nodup_app_intro {A} (a b : list A) : NoDup a -> NoDup b -> (forall x, In x a -> In x b -> False) -> NoDup (a ++ b).
Proof.
  intros Na Nb D. induction Na as [|x a H Na IH]; [exact Nb|]. cbn. constructor.
  - intros I. apply in_app_or in I. destruct I as [I|I]; [auto|]. eapply D; [left; reflexivity|exact I].
  - apply IH. intros y Ia Ib. eapply D; [right; exact Ia|exact Ib].
Qed.

(** C58. If no parser is registered twice, each parser declares at most one matching type (once), and the requested type has
    no wildcard, then each parser is connected at most once. *)
Theorem C58_connects_once : forall ps als, Forall (fun p => Forall parsed (pmimes p)) ps -> NoDup ps ->
  exists g, setup ps als = Ok g /\
  forall mt scope, parsed mt -> mmain mt <> star -> msub mt <> star ->
  (forall p l1 d l2, In p ps -> pmimes p = l1 ++ d :: l2 -> mime_matches mt d -> forall e, In e (l1 ++ l2) -> ~ mime_matches mt e) ->
  exists l, connect_mime_type g mt scope = Ok l /\ NoDup l.
Proof.
  intros ps als F ND.
  assert (Pv : forall m, parsed m -> valid_mime m).
  { intros m H. apply parsed_iff in H. destruct H as ((A & _) & _ & (B & _)). split; assumption. }
  assert (Fv : Forall valid_parser ps).
  { eapply Forall_impl; [|exact F]. intros p H. eapply Forall_impl; [|exact H]. apply Pv. }
  destruct (setup_ok ps als Fv) as (g & E & _ & _ & _ & M). exists g. split; [exact E|].
  intros mt scope Pm N1 N2 U.
  assert (Pms : parsed (mkMime (mmain mt) star)).
  { apply parsed_iff. apply parsed_iff in Pm. destruct Pm as (A & B & _). cbn. split; [exact A|]. split; [exact B|]. apply star_name. }
  assert (Pss : parsed (mkMime star star)) by (exists star; reflexivity).
  unfold connect_mime_type, connect_matching. rewrite (valid_key mt (Pv _ Pm)). cbn [bind].
  replace (main_type mt) with (Ok (mmain mt)) by (unfold main_type, ensure_valid; destruct (Pv _ Pm) as [A B]; destruct (mmain mt), (msub mt); congruence || reflexivity).
  cbn [bind]. rewrite (valid_key _ (Pv _ Pms)). cbn [bind]. rewrite (valid_key _ (Pv _ Pss)). cbn [bind].
  eexists. split; [reflexivity|].
  assert (Kx : forall d m, parsed d -> parsed m -> (spec_key d = spec_key m <->
     (mmain d = star /\ mmain m = star) \/ (mmain d = mmain m /\ msub d = star /\ msub m = star) \/ d = m)).
  { intros d m Pd Pm'. destruct (C54_key_exact d m Pd Pm') as (k & k' & K1 & K2 & K3).
    rewrite (valid_key d (Pv _ Pd)) in K1. rewrite (valid_key m (Pv _ Pm')) in K2. injection K1 as <-. injection K2 as <-. exact K3. }
  assert (Pd : forall p d, In p ps -> In d (pmimes p) -> parsed d).
  { intros p d I J. rewrite Forall_forall in F. specialize (F p I). rewrite Forall_forall in F. exact (F d J). }
  (* every type whose key is one of the three matches *)
  assert (Mt : forall d m, parsed d -> m = mt \/ m = mkMime (mmain mt) star \/ m = mkMime star star -> spec_key d = spec_key m -> mime_matches mt d).
  { intros d m Hd Hm K. apply Kx in K; [|exact Hd|destruct Hm as [-> | [-> | ->]]; assumption]. unfold mime_matches.
    destruct Hm as [-> | [-> | ->]]; cbn [mmain msub] in K; unfold star in *.
    - destruct K as [[_ K]|[(_ & _ & K)|K]]; [congruence|congruence|auto].
    - destruct K as [[K _]|[(K1 & K2 & _)|K]]; auto. subst d. cbn. auto.
    - destruct K as [[K _]|[(K1 & K2 & _)|K]]; auto. subst d. cbn. auto. }
  assert (One : forall m, m = mt \/ m = mkMime (mmain mt) star \/ m = mkMime star star -> NoDup (by_mime g (spec_key m))).
  { intros m Hm. rewrite M. clear M E. revert U Pd. clear F Fv. induction ND as [|p qs Hp ND IH]; intros U Pd; [constructor|].
    cbn [flat_map]. rewrite under_app.
    assert (L : under (map (fun x => (spec_key x, p)) (pmimes p)) (spec_key m) = [] \/ under (map (fun x => (spec_key x, p)) (pmimes p)) (spec_key m) = [p]).
    { assert (Gn : forall l, (forall l1 d l2, l = l1 ++ d :: l2 -> spec_key d = spec_key m -> forall e, In e (l1 ++ l2) -> spec_key e <> spec_key m) ->
        under (map (fun x => (spec_key x, p)) l) (spec_key m) = [] \/ under (map (fun x => (spec_key x, p)) l) (spec_key m) = [p]).
      { induction l as [|d l IHl]; intros H; [left; reflexivity|]. cbn [map]. rewrite under_cons. unfold under at 1 3. cbn [filter fst].
        destruct (bytes_eqb (spec_key m) (spec_key d)) eqn:Ek.
        - apply bytes_eqb_spec in Ek. right. cbn [map snd app]. f_equal.
          specialize (H [] d l eq_refl (eq_sym Ek)). cbn [app] in H. clear - H.
          destruct (under (map (fun x => (spec_key x, p)) l) (spec_key m)) as [|q r] eqn:Eu; [reflexivity|exfalso].
          assert (In q (under (map (fun x => (spec_key x, p)) l) (spec_key m))) as I by (rewrite Eu; left; reflexivity).
          apply in_under in I. apply in_map_iff in I. destruct I as (e & Ee & I). apply (H e I). injection Ee as Ee _. exact Ee.
        - cbn [map app]. apply IHl. intros l1 e l2 El Ke e' Ie. apply (H (d :: l1) e l2); [rewrite El; reflexivity|exact Ke|right; exact Ie]. }
      apply Gn. intros l1 d l2 El Kd e Ie Ke. assert (Ip : In p (p :: qs)) by (left; reflexivity).
      assert (Ind : In d (pmimes p)) by (rewrite El; apply in_or_app; right; left; reflexivity).
      assert (Ine : In e (pmimes p)) by (rewrite El; apply in_app_or in Ie; apply in_or_app; destruct Ie; [left|right; right]; assumption).
      apply (U p l1 d l2 Ip El (Mt d m (Pd p d Ip Ind) Hm Kd) e Ie). eapply Mt; [eapply Pd; [exact Ip|exact Ine]|exact Hm|exact Ke]. }
    assert (Rest : NoDup (under (flat_map (fun p => map (fun x => (spec_key x, p)) (pmimes p)) qs) (spec_key m))).
    { apply IH; [intros q l1 d l2 I; apply U; right; exact I|intros q d I; apply Pd; right; exact I]. }
    destruct L as [-> | ->]; [exact Rest|]. cbn [app]. constructor; [|exact Rest].
    intros I. apply in_under in I. apply in_flat_map in I. destruct I as (q & Iq & J). apply in_map_iff in J. destruct J as (d & J & _).
    injection J as _ ->. exact (Hp Iq). }
  assert (Dis : forall m1 m2 p, (m1 = mt \/ m1 = mkMime (mmain mt) star \/ m1 = mkMime star star) ->
     (m2 = mt \/ m2 = mkMime (mmain mt) star \/ m2 = mkMime star star) -> spec_key m1 <> spec_key m2 ->
     In p (by_mime g (spec_key m1)) -> In p (by_mime g (spec_key m2)) -> False).
  { intros m1 m2 p H1 H2 N I1 I2. rewrite M in I1, I2. apply in_under, in_flat_map in I1. apply in_under, in_flat_map in I2.
    destruct I1 as (q & Iq & J1). apply in_map_iff in J1. destruct J1 as (d1 & J1 & K1). injection J1 as J1 ->.
    destruct I2 as (q & Iq2 & J2). apply in_map_iff in J2. destruct J2 as (d2 & J2 & K2). injection J2 as J2 ->.
    pose proof (Mt d1 m1 (Pd _ _ Iq K1) H1 J1) as M1. pose proof (Mt d2 m2 (Pd _ _ Iq K2) H2 J2) as M2.
    apply in_split in K1. destruct K1 as (l1 & l2 & El). apply (U p l1 d1 l2 Iq El M1 d2); [|exact M2].
    rewrite El in K2. apply in_app_or in K2. apply in_or_app. destruct K2 as [K2|[K2|K2]]; [auto| |auto]. subst d2. congruence. }
  assert (Q12 : spec_key mt <> spec_key (mkMime (mmain mt) star)).
  { intros K. apply Kx in K; auto. cbn in K. destruct K as [[K _]|[(_ & K & _)|K]]; [congruence|congruence|]. rewrite K in N2. cbn in N2. congruence. }
  assert (Q13 : spec_key mt <> spec_key (mkMime star star)).
  { intros K. apply Kx in K; auto. cbn in K. destruct K as [[K _]|[(_ & K & _)|K]]; [congruence|congruence|]. rewrite K in N2. cbn in N2. congruence. }
  assert (Q23 : spec_key (mkMime (mmain mt) star) <> spec_key (mkMime star star)).
  { intros K. apply Kx in K; auto. cbn in K. destruct K as [[K _]|[(K & _ & _)|K]]; congruence. }
  assert (I1 : mt = mt \/ mt = mkMime (mmain mt) star \/ mt = mkMime star star) by auto.
  assert (I2 : mkMime (mmain mt) star = mt \/ mkMime (mmain mt) star = mkMime (mmain mt) star \/ mkMime (mmain mt) star = mkMime star star) by auto.
  assert (I3 : mkMime star star = mt \/ mkMime star star = mkMime (mmain mt) star \/ mkMime star star = mkMime star star) by auto.
  apply nodup_app_intro; [apply NoDup_filter, One, I1|apply nodup_app_intro; [apply NoDup_filter, One, I2|apply NoDup_filter, One, I3|]|].
  - intros p A B. apply filter_In in A, B. destruct A as [A _], B as [B _]. exact (Dis _ _ p I2 I3 Q23 A B).
  - intros p A B. apply filter_In in A. destruct A as [A _]. apply in_app_or in B.
    destruct B as [B|B]; apply filter_In in B; destruct B as [B _]; [exact (Dis _ _ p I1 I2 Q12 A B)|exact (Dis _ _ p I1 I3 Q13 A B)].
Qed.

(** A request with a wildcard connects the same parser several times: the three lookups of connect_mime_type use the same
    key. *)
Theorem C58_wildcard_connects_twice_refuted : exists g p, setup [dns] [] = Ok g /\
  connect_mime_type g (mkMime [97%Z] star) 0 = Ok [p; p].
Proof. eexists; eexists. split; reflexivity. Qed.
Example C58_sample : exists g, setup [http; dns; priv] [] = Ok g /\ connect_mime_type g (mkMime [97%Z] [98%Z]) 2 = Ok [http; dns; priv] /\
  connect_mime_type g (mkMime [97%Z] [99%Z]) 1 = Ok [dns].
Proof. eexists. split; [reflexivity|]. vm_compute. split; reflexivity. Qed.
Example C58_sample_parsed : Forall (fun p => Forall parsed (pmimes p)) [http; dns; priv].
Proof.
  repeat constructor; [exists [97; 47; 98]%Z|exists [97; 47; 42]%Z|exists star]; reflexivity.
Qed.
