(** C54: MIME types. *)
From Verif Require Import Base StrModel StrSpec StrProofs MimeModel.

(** A name: not empty, not starting or ending with whitespace. *)
Definition name (s : bytes) : Prop :=
  s <> [] /\ (forall x r, s = x :: r -> ~ In x ws) /\ (forall x r, s = r ++ [x] -> ~ In x ws).

(** The texts that denote a MIME type: a single star, or main type and subtype separated by the first slash, each
    optionally surrounded by whitespace. *)
Inductive denotes_mime : bytes -> mime -> Prop :=
| dm_star : denotes_mime star (mkMime star star)
| dm_pair w1 m w2 w3 s w4 : all_in ws w1 -> all_in ws w2 -> all_in ws w3 -> all_in ws w4 ->
    name m -> ~ In 47%Z m -> name s ->
    denotes_mime (w1 ++ m ++ w2 ++ [47%Z] ++ w3 ++ s ++ w4) (mkMime m s).

Lemma trim_unique w1 m w2 : all_in ws w1 -> all_in ws w2 -> name m -> trim (w1 ++ m ++ w2) ws = m.
Proof.
  intros A B [N [F L]]. destruct (trim_spec (w1 ++ m ++ w2) ws) as (v1 & v2 & E & A' & B' & F' & L').
  set (t := trim (w1 ++ m ++ w2) ws) in *. clearbody t.
  assert (H1 : forall w w' a b, all_in ws w -> all_in ws w' -> (forall x r, a = x :: r -> ~ In x ws) -> (forall x r, b = x :: r -> ~ In x ws) ->
     a <> [] -> w ++ a = w' ++ b -> w = w').
  { clear. induction w as [|c w IH]; intros w' a b A A' Fa Fb N E.
    - destruct w' as [|c' w']; [reflexivity|]. cbn in E. inversion A'; subst. exfalso. eapply Fa; [reflexivity|]. assumption.
    - destruct w' as [|c' w']; cbn in E.
      + inversion A; subst. exfalso. eapply Fb; [reflexivity|]. assumption.
      + injection E as <- E. f_equal. inversion A; inversion A'; subst. apply (IH w' a b); assumption. }
  destruct t as [|c t].
  - (* everything would be whitespace *)
    exfalso. cbn [app] in E. destruct m as [|x m]; [congruence|]. apply (F x m eq_refl).
    assert (In x (v1 ++ v2)) as I by (rewrite <- E; apply in_or_app; right; left; reflexivity).
    apply in_app_or in I. unfold all_in in *. rewrite Forall_forall in A', B'. destruct I; auto.
  - destruct m as [|x m]; [congruence|].
    assert (w1 = v1).
    { eapply (H1 w1 v1 ((x :: m) ++ w2) ((c :: t) ++ v2)); eauto; try discriminate.
      - intros y r [= <- _]. eapply F; reflexivity.
      - intros y r [= <- _]. eapply F'; reflexivity. }
    subst v1. apply app_inv_head in E. apply (f_equal (@rev byte)) in E. rewrite !rev_app_distr in E.
    assert (R : forall w, all_in ws w -> all_in ws (rev w)) by (intros w; apply Forall_rev).
    assert (rev w2 = rev v2).
    { eapply (H1 _ _ (rev (x :: m)) (rev (c :: t))); eauto.
      - intros y r Er. apply (L y (rev r)). apply (f_equal (@rev byte)) in Er. rewrite rev_involutive in Er. exact Er.
      - intros y r Er. apply (L' y (rev r)). apply (f_equal (@rev byte)) in Er. rewrite rev_involutive in Er. exact Er.
      - cbn. intros Z. apply app_eq_nil in Z. destruct Z; discriminate. }
    rewrite H in E. apply app_inv_head in E. apply (f_equal (@rev byte)) in E. rewrite !rev_involutive in E. congruence.
Qed.

Lemma split1_first a b : ~ In 47%Z a -> split1 (a ++ [47%Z] ++ b) slash = (a, b).
Proof.
  intros N. unfold split1.
  assert (F : find_sub (a ++ [47%Z] ++ b) slash = Some (length a)).
  { induction a as [|c a IH]; [reflexivity|]. cbn [app find_sub slash prefixb].
    destruct (Z.eqb_spec 47 c) as [<-|Nc]; [exfalso; apply N; left; reflexivity|]. cbn [andb].
    cbn [app] in IH. rewrite IH; [reflexivity|]. intros I. apply N. right. exact I. }
  rewrite F. f_equal.
  - rewrite firstn_app, Nat.sub_diag, firstn_all. cbn. apply app_nil_r.
  - cbn [slash length]. rewrite skipn_app, skipn_all2 by lia. replace (length a + 1 - length a) with 1 by lia. reflexivity.
Qed.

Lemma ws_no_slash w : all_in ws w -> ~ In 47%Z w.
Proof. unfold all_in. rewrite Forall_forall. intros A I. apply A in I. cbn in I. intuition discriminate. Qed.

Lemma no_slash_all w a v : all_in ws w -> all_in ws v -> ~ In 47%Z a -> ~ In 47%Z (w ++ a ++ v).
Proof.
  intros A B N I. apply in_app_or in I. destruct I as [I|I]; [exact (ws_no_slash _ A I)|].
  apply in_app_or in I. destruct I as [I|I]; [auto|exact (ws_no_slash _ B I)].
Qed.

Lemma trim_name s : trim s ws = [] \/ name (trim s ws).
Proof.
  destruct (trim_spec s ws) as (w1 & w2 & _ & _ & _ & F & L). destruct (trim s ws) as [|c t]; [auto|right].
  split; [discriminate|]. split; assumption.
Qed.

Lemma parse_ok_iff s m : mime_parse s = Ok m <-> denotes_mime s m.
Proof.
  split.
  - unfold mime_parse. destruct (bytes_eqb s star) eqn:E.
    + apply bytes_eqb_spec in E. subst s. intros [= <-]. constructor.
    + pose proof (split1_ok s slash) as S1. destruct (split1 s slash) as [a b] eqn:Es. cbn [fst snd].
      destruct (trim_name a) as [-> | Na]; [discriminate|]. destruct (trim_name b) as [Tb | Nb].
      { rewrite Tb. destruct (trim a ws); discriminate. }
      destruct (trim a ws) as [|ca ta] eqn:Ta; [destruct Na; congruence|].
      destruct (trim b ws) as [|cb tb] eqn:Tb; [destruct Nb; congruence|]. intros [= <-].
      assert (Ea : s = a ++ [47%Z] ++ b /\ ~ In 47%Z a).
      { unfold split1 in Es. destruct (find_sub s slash) as [i|] eqn:Ef.
        - pose proof (find_sub_before s slash i Ef ltac:(discriminate)) as Nc.
          destruct (find_sub_some _ _ _ Ef) as (Sk & _). injection Es as <- <-. split.
          + rewrite Sk at 1. cbn [slash length] in *. f_equal.
          + intros I. apply Nc. apply in_split in I. destruct I as (l1 & l2 & ->). exists l1, l2. reflexivity.
        - injection Es as <- <-. exfalso. cbn in Tb. discriminate. }
      destruct Ea as [-> Nsl]. destruct (trim_spec a ws) as (w1 & w2 & E1 & A1 & A2 & _).
      destruct (trim_spec b ws) as (w3 & w4 & E2 & A3 & A4 & _). rewrite Ta in E1. rewrite Tb in E2.
      rewrite E1, E2. rewrite <- !app_assoc. apply dm_pair; auto.
      intros I. apply Nsl. rewrite E1. apply in_or_app. right. apply in_or_app. left. exact I.
  - intros D. destruct D as [|w1 m w2 w3 s w4 A1 A2 A3 A4 Nm Nsl Ns]; [reflexivity|].
    unfold mime_parse. destruct (bytes_eqb _ star) eqn:E.
    { apply bytes_eqb_spec in E. exfalso.
      assert (In 47%Z star) as I by (rewrite <- E; do 3 (apply in_or_app; right); left; reflexivity).
      cbn in I. intuition discriminate. }
    replace (w1 ++ m ++ w2 ++ [47%Z] ++ w3 ++ s ++ w4) with ((w1 ++ m ++ w2) ++ [47%Z] ++ (w3 ++ s ++ w4)) by (rewrite <- !app_assoc; reflexivity).
    rewrite split1_first by (apply no_slash_all; auto). cbn [fst snd].
    rewrite !trim_unique by assumption. destruct Nm as [Nm _], Ns as [Ns _]. destruct m, s; congruence.
Qed.

(** C54. Parsing accepts exactly the texts that denote a MIME type, returns that type, and reports everything else with
    InvalidMIMEType. *)
Theorem C54_parse_accepts_exactly : forall s,
  (forall m, mime_parse s = Ok m <-> denotes_mime s m) /\
  ((forall m, ~ denotes_mime s m) -> mime_parse s = Throw InvalidMIMEType).
Proof.
  intros s. split; [intros m; apply parse_ok_iff|]. intros N.
  destruct (mime_parse s) as [m|e|] eqn:E.
  - exfalso. apply (N m), parse_ok_iff, E.
  - unfold mime_parse in E. destruct (bytes_eqb s star); [discriminate|].
    destruct (trim (fst (split1 s slash)) ws), (trim (snd (split1 s slash)) ws); congruence.
  - exfalso. unfold mime_parse in E. destruct (bytes_eqb s star); [discriminate|].
    destruct (trim (fst (split1 s slash)) ws), (trim (snd (split1 s slash)) ws); congruence.
Qed.
Example C54_denotes_sample : (* " text / *" *)
  denotes_mime [32; 116; 101; 120; 116; 32; 47; 32; 42]%Z (mkMime [116; 101; 120; 116]%Z star).
Proof. apply parse_ok_iff. vm_compute. reflexivity. Qed.
Example C54_rejects_sample : forall m, ~ denotes_mime [116; 101; 120; 116; 47; 32]%Z m.
Proof. intros m D. apply parse_ok_iff in D. vm_compute in D. discriminate. Qed.

(** A type that came out of parsing. *)
Definition parsed (m : mime) : Prop := exists s, mime_parse s = Ok m.

Lemma star_name : name star.
Proof.
  split; [discriminate|]. split; intros x r E.
  - injection E as <- _. cbn. intuition discriminate.
  - change star with ([] ++ [42%Z]) in E. apply app_inj_tail in E. destruct E as [_ <-]. cbn. intuition discriminate.
Qed.

Lemma parsed_iff m : parsed m <-> name (mmain m) /\ ~ In 47%Z (mmain m) /\ name (msub m).
Proof.
  split.
  - intros [s E]. apply parse_ok_iff in E. destruct E; cbn; [|auto].
    split; [apply star_name|]. split; [cbn; intuition discriminate|apply star_name].
  - intros (A & B & C). exists (mmain m ++ slash ++ msub m). apply parse_ok_iff.
    pose proof (dm_pair [] (mmain m) [] [] (msub m) []) as D. destruct m as [a b]. cbn [mmain msub app] in *.
    rewrite app_nil_r in D. apply D; auto; constructor.
Qed.

Lemma rendering m : parsed m -> mime_string m = Ok (mmain m ++ [47%Z] ++ msub m).
Proof.
  rewrite parsed_iff. intros ((A & _) & _ & (B & _)). unfold mime_string, main_type, sub_type, ensure_valid.
  destruct (mmain m), (msub m); congruence || reflexivity.
Qed.

(** C54. Rendering a parsed type and parsing the result gives the same type; and parsing a text main/sub without
    whitespace and rendering gives the same text. *)
Theorem C54_roundtrip :
  (forall m, parsed m -> exists t, mime_string m = Ok t /\ mime_parse t = Ok m) /\
  (forall a b, name a -> ~ In 47%Z a -> name b ->
     exists m, mime_parse (a ++ [47%Z] ++ b) = Ok m /\ mime_string m = Ok (a ++ [47%Z] ++ b) /\
               main_type m = Ok a /\ sub_type m = Ok b).
Proof.
  assert (P : forall m, name (mmain m) -> ~ In 47%Z (mmain m) -> name (msub m) -> mime_parse (mmain m ++ [47%Z] ++ msub m) = Ok m).
  { intros m A B C. apply parse_ok_iff. pose proof (dm_pair [] (mmain m) [] [] (msub m) []) as D.
    destruct m as [a b]. cbn [mmain msub app] in *. rewrite app_nil_r in D. apply D; auto; constructor. }
  split.
  - intros m Pm. exists (mmain m ++ [47%Z] ++ msub m). split; [apply rendering; exact Pm|].
    apply parsed_iff in Pm. destruct Pm as (A & B & C). apply P; auto.
  - intros a b A B C. exists (mkMime a b). pose proof (P (mkMime a b) A B C) as E. cbn [mmain msub] in E.
    split; [exact E|]. assert (Q : parsed (mkMime a b)) by (eexists; exact E).
    split; [apply (rendering _ Q)|]. unfold main_type, sub_type, ensure_valid. cbn [mmain msub].
    destruct A as [A _], C as [C _]. destruct a, b; try congruence. split; reflexivity.
Qed.

Lemma as_key_parsed m : parsed m -> as_key m = Ok (
  if bytes_eqb (mmain m) star then [] else if bytes_eqb (msub m) star then mmain m else mmain m ++ [47%Z] ++ msub m).
Proof.
  intros P. pose proof (rendering m P) as R. apply parsed_iff in P. destruct P as ((A & _) & _ & (B & _)).
  unfold as_key. rewrite R. unfold ensure_valid. destruct (mmain m), (msub m); try congruence. cbn [bind].
  destruct (bytes_eqb _ star); [reflexivity|]. destruct (bytes_eqb _ star); reflexivity.
Qed.

(** C54. For types coming out of parsing, two lookup keys are equal exactly if both have a wildcard as main type, or both
    have the same main type with a wildcard as subtype, or they are the same type. *)
Theorem C54_key_exact : forall m m', parsed m -> parsed m' ->
  exists k k', as_key m = Ok k /\ as_key m' = Ok k' /\
  (k = k' <-> (mmain m = star /\ mmain m' = star) \/
              (mmain m = mmain m' /\ msub m = star /\ msub m' = star) \/
              m = m').
Proof.
  intros m m' P P'. eexists; eexists. split; [apply as_key_parsed; exact P|]. split; [apply as_key_parsed; exact P'|].
  apply parsed_iff in P, P'. destruct P as ((A & _) & B & (C & _)), P' as ((A' & _) & B' & (C' & _)).
  destruct m as [a b], m' as [a' b']. cbn [mmain msub] in *.
  assert (Dec : forall x, bytes_eqb x star = true <-> x = star) by (intros; apply bytes_eqb_spec).
  assert (Sl : forall u v x, ~ In 47%Z x -> u ++ [47%Z] ++ v = x -> False).
  { intros u v x N E. apply N. rewrite <- E. apply in_or_app. right. left. reflexivity. }
  assert (Sp : forall u v u' v', ~ In 47%Z u -> ~ In 47%Z u' -> u ++ [47%Z] ++ v = u' ++ [47%Z] ++ v' -> u = u' /\ v = v').
  { clear. induction u as [|c u IH]; intros v [|c' u'] v' N N' E.
    - injection E as <-. auto.
    - exfalso. injection E as <- _. apply N'. left. reflexivity.
    - exfalso. injection E as -> _. apply N. left. reflexivity.
    - injection E as <- E. destruct (IH v u' v') as [-> ->]; auto; [intros I; apply N; right; exact I|intros I; apply N'; right; exact I]. }
  destruct (bytes_eqb a star) eqn:E1; destruct (bytes_eqb a' star) eqn:E2;
    rewrite <- ?not_true_iff_false, ?Dec in E1; rewrite <- ?not_true_iff_false, ?Dec in E2.
  - subst. split; auto.
  - destruct (bytes_eqb b' star) eqn:E3.
    + split; [intros H; congruence|intros [[_ H]|[[H _]|H]]; [congruence|congruence|injection H as -> ->; congruence]].
    + split; [intros H; symmetry in H; apply app_eq_nil in H; destruct H; discriminate|intros [[_ H]|[[H _]|H]]; [congruence|congruence|injection H as -> ->; congruence]].
  - destruct (bytes_eqb b star) eqn:E3.
    + split; [intros H; congruence|intros [[H _]|[[H _]|H]]; [congruence|congruence|injection H as -> ->; congruence]].
    + split; [intros H; apply app_eq_nil in H; destruct H; discriminate|intros [[H _]|[[H _]|H]]; [congruence|congruence|injection H as -> ->; congruence]].
  - destruct (bytes_eqb b star) eqn:E3; destruct (bytes_eqb b' star) eqn:E4; rewrite <- ?not_true_iff_false, ?Dec in E3; rewrite <- ?not_true_iff_false, ?Dec in E4.
    + subst. split; [intros ->; auto|]. intros [[H _]|[[H _]|H]]; [congruence|exact H|congruence].
    + split; [intros H; exfalso; eapply (Sl a' b' a); auto|]. intros [[H _]|[(_ & _ & H)|H]]; congruence.
    + split; [intros H; exfalso; eapply (Sl a b a'); auto|]. intros [[H _]|[(_ & H & _)|H]]; congruence.
    + split; [intros H; destruct (Sp _ _ _ _ B B' H) as [-> ->]; auto|].
      intros [[H _]|[(_ & H & _)|H]]; [congruence|congruence|]. injection H as -> ->. reflexivity.
Qed.
Example C54_key_sample : exists m m', parsed m /\ parsed m' /\ m <> m' /\ as_key m = as_key m'.
Proof. (* star-slash-x and star *)
  exists (mkMime star [120%Z]), (mkMime star star). split; [exists [42; 47; 120]%Z; reflexivity|].
  split; [exists star; reflexivity|]. split; [discriminate|reflexivity].
Qed.

(** With the two-argument constructor (mime.h:41), names may contain a slash, and then keys of different types collide. *)
Theorem C54_two_argument_constructor_refuted : exists m m', m <> m' /\ mmain m <> star /\ mmain m' <> star /\
  msub m = star /\ msub m' <> star /\ exists k, as_key m = Ok k /\ as_key m' = Ok k.
Proof.
  exists (mkMime [97; 47; 98]%Z star), (mkMime [97]%Z [98]%Z). repeat (split; [discriminate|]). split; [reflexivity|].
  split; [discriminate|]. eexists. split; reflexivity.
Qed.

(** An uninitialised type refuses every use. *)
Theorem C54_uninitialized : main_type mime_default = Throw InvalidMIMEType /\ sub_type mime_default = Throw InvalidMIMEType /\
  mime_string mime_default = Throw InvalidMIMEType /\ as_key mime_default = Throw InvalidMIMEType.
Proof. repeat split. Qed.

(** Equality, and which types are wildcards. *)
Theorem C54_equality : forall a b, mime_eqb a b = true <-> a = b.
Proof.
  intros [a b] [c d]. unfold mime_eqb. cbn [mmain msub]. rewrite andb_true_iff, !bytes_eqb_spec.
  split; [intros [-> ->]; reflexivity|intros [= -> ->]; auto].
Qed.
Print Assumptions C54_equality.

Theorem C54_wildcard : forall m, is_wildcard m = true <-> mmain m = [42%Z] \/ msub m = [42%Z].
Proof. intros m. unfold is_wildcard. rewrite orb_true_iff, !bytes_eqb_spec. reflexivity. Qed.
Print Assumptions C54_wildcard.
