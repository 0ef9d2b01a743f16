(** C85: the life of a unit. Hooks, &convert, &requires, conditions and containers do what the manual says. *)
From Coq Require Import List Bool Arith Lia.
From Verif Require Import UlfModel UlfSpec UlfProofs UlfProofs2 UlfProofs3 UlfProofs4 UlfProofs5.
Import ListNotations.

(** ** The hooks of a unit *)

(** Parsing that succeeds: %init, what happens in the fields, %done, %finally. The fields whose hooks ran are those of one
    way through the unit, in order; the requirements of the unit hold when %done runs. *)
Theorem C85_success fuel u w i s' : p_unit fuel u (start w i) = (Ok tt, s') ->
  exists wi mid wd wf, str s' = EvInit wi :: mid ++ [EvDone wd; EvFinally wf]
    /\ calm mid /\ (forall e, In e mid -> is_field_err e = false)
    /\ way (u_items u) (hooked mid)
    /\ Forall (fun q => q wd VVoid = Val true) (u_reqs u).
Proof.
  intros H. destruct (unit_story _ _ _ _ _ H) as (t & wi & mid & ri & dn & tl & F & -> & [C _] & HQ & D & [(X & _)|[(wd & wf & -> & _ & -> & _)|(e0 & we & _ & [(e & _ & X & _)|(wf & _ & _ & X & _)])]]); try discriminate.
  destruct D as [D|(wd' & D & -> & R)]; [discriminate|]. inversion D; subst wd'. destruct HQ as (_ & _ & _ & HW & _ & HE).
  exists wi, mid, wd, wf. cbn in F. refine (conj F (conj C (conj (HE eq_refl) (conj (HW eq_refl) R)))).
Qed.

(** Parsing that fails: %error runs with the error, then %finally - if %error does not fail itself. Or %finally has failed
    after %done. *)
Theorem C85_failure fuel u w i e s' : p_unit fuel u (start w i) = (Err e, s') ->
  exists wi mid, calm mid /\
    ((exists wd wf, str s' = EvInit wi :: mid ++ [EvDone wd; EvFinally wf] /\ snd (u_finally u wf) = Some e)
     \/ exists dn e0 we, (dn = [] \/ exists wd, dn = [EvDone wd])
          /\ ((str s' = EvInit wi :: mid ++ dn ++ [EvError e0 we] /\ snd (u_error u e0 we) = Some e)
              \/ exists wf, str s' = EvInit wi :: mid ++ dn ++ [EvError e0 we; EvFinally wf]
                   /\ (snd (u_finally u wf) = Some e \/ (snd (u_finally u wf) = None /\ e = e0)))).
Proof.
  intros H. destruct (unit_story _ _ _ _ _ H) as (t & wi & mid & ri & dn & tl & F & -> & [C _] & HQ & D & T). cbn in F.
  exists wi, mid. split; [exact C|]. destruct T as [(X & _)|[(wd & wf & -> & _ & -> & X)|(e0 & we & _ & T)]]; [discriminate| |].
  - left. exists wd, wf. split; [exact F|]. destruct (snd (u_finally u wf)); congruence.
  - right. exists dn, e0, we. split; [destruct D as [D|(wd & D & _)]; eauto|].
    destruct T as [(e1 & E1 & E2 & ->)|(wf & E1 & E2 & E3 & ->)]; [left; inversion E2; subst; auto|].
    right. exists wf. split; [exact F|]. inversion E3. destruct (snd (u_finally u wf)); auto.
Qed.

(** %finally is the last thing that happens, and happens once: as long as %error does not fail. *)
Theorem C85_finally_once fuel u w i r s' : (forall e we, snd (u_error u e we) = None) ->
  p_unit fuel u (start w i) = (r, s') -> r <> Div ->
  exists t wf, str s' = t ++ [EvFinally wf] /\ forall wf', ~ In (EvFinally wf') t.
Proof.
  intros HE H Hr. destruct (unit_story _ _ _ _ _ H) as (t & wi & mid & ri & dn & tl & F & -> & [C _] & HQ & D & T). cbn in F.
  assert (N : forall l, (forall wf', ~ In (EvFinally wf') l) -> forall wf', ~ In (EvFinally wf') (EvInit wi :: mid ++ l)).
  { intros l Hl wf' [X|X]; [discriminate|]. apply in_app_or in X as [X|X]; [apply C in X; discriminate|exact (Hl _ X)]. }
  assert (ND : forall wf', ~ In (EvFinally wf') dn).
  { intros wf' X. destruct D as [-> |(wd & -> & _)]; [destruct X|]. destruct X as [X|[]]. discriminate. }
  destruct T as [(X & _)|[(wd & wf & -> & _ & -> & X)|(e0 & we & _ & [(e1 & E1 & _)|(wf & E1 & E2 & E3 & ->)])]]; [congruence| |rewrite HE in E1; discriminate|].
  - exists (EvInit wi :: mid ++ [EvDone wd]), wf. split; [rewrite F; cbn; rewrite <- app_assoc; reflexivity|]. apply N. exact ND.
  - exists (EvInit wi :: mid ++ dn ++ [EvError e0 we]), wf. split; [rewrite F; cbn; rewrite <- !app_assoc; reflexivity|].
    apply N. intros wf' X. apply in_app_or in X as [X|[X|[]]]; [exact (ND _ X)|discriminate].
Qed.

(** A failure is told to %error, once, and with the error reported to the caller - as long as %error and %finally do not
    fail. *)
Theorem C85_error_told fuel u w i e s' : (forall e we, snd (u_error u e we) = None) -> (forall wf, snd (u_finally u wf) = None) ->
  p_unit fuel u (start w i) = (Err e, s') ->
  exists t we wf, str s' = t ++ [EvError e we; EvFinally wf] /\ forall e' we', ~ In (EvError e' we') t.
Proof.
  intros HE HF H. destruct (unit_story _ _ _ _ _ H) as (t & wi & mid & ri & dn & tl & F & -> & [C _] & HQ & D & T). cbn in F.
  destruct T as [(X & _)|[(wd & wf & -> & _ & -> & X)|(e0 & we & _ & [(e1 & E1 & _)|(wf & E1 & E2 & E3 & ->)])]];
    [discriminate|rewrite HF in X; discriminate|rewrite HE in E1; discriminate|].
  rewrite HF in E3. inversion E3; subst e0. exists (EvInit wi :: mid ++ dn), we, wf.
  split; [rewrite F; cbn; rewrite <- app_assoc; reflexivity|]. intros e' we' [X|X]; [discriminate|]. apply in_app_or in X as [X|X]; [apply C in X; discriminate|].
  destruct D as [-> |(wd & -> & _)]; [destruct X|destruct X as [X|[]]; discriminate].
Qed.

(** "We keep running either %done or %error": if the unit has no &size, and %done does not fail, then exactly one of them runs. *)
Theorem C85_done_or_error fuel u w i r s' : u_size u = None -> (forall wd, snd (u_done u wd) = None) ->
  p_unit fuel u (start w i) = (r, s') -> r <> Div ->
  ((exists wd, In (EvDone wd) (str s')) /\ (forall e we, ~ In (EvError e we) (str s')))
  \/ ((exists e we, In (EvError e we) (str s')) /\ (forall wd, ~ In (EvDone wd) (str s'))).
Proof.
  intros HS HD H Hr. destruct (unit_story _ _ _ _ _ H) as (t & wi & mid & ri & dn & tl & F & -> & [C _] & HQ & D & T). cbn in F. rewrite F.
  destruct T as [(X & _)|[(wd & wf & -> & _ & -> & X)|(e0 & we & DN & T)]]; [congruence| |].
  - left. split; [exists wd; right; apply in_or_app; right; left; reflexivity|]. intros e we [X1|X1]; [discriminate|].
    apply in_app_or in X1 as [X1|[X1|[X1|[]]]]; try discriminate. apply C in X1. discriminate.
  - right. assert (dn = []) as -> by (destruct DN as [-> |(wd & _ & [X|[X _]])]; [reflexivity|rewrite HD in X; discriminate|congruence]).
    assert (exists l, tl = EvError e0 we :: l /\ forall wd, ~ In (EvDone wd) l) as (l & -> & Hl).
    { destruct T as [(e1 & _ & _ & ->)|(wf & _ & _ & _ & ->)]; eexists; (split; [reflexivity|]); intros wd X; [destruct X|destruct X as [X|[]]; discriminate]. }
    split; [exists e0, we; right; apply in_or_app; right; left; reflexivity|]. intros wd [X|X]; [discriminate|].
    apply in_app_or in X as [X|[X|X]]; [apply C in X; discriminate|discriminate|exact (Hl _ X)].
Qed.

(** The same for every unit inside, at any depth. *)
Theorem C85_nested_units fuel u w i r s' : p_unit fuel u (start w i) = (r, s') -> life_shape (str s') /\ Forall nice (str s').
Proof.
  intros H. destruct all_ends as (HU & _). destruct (HU u fuel _ _ _ H) as (t & F & G). cbn in F. rewrite F. apply unit_ends_shape in G. exact G.
Qed.

(** ** Hooks of fields *)

(** Whenever the hook of a field runs - and whatever happens later - the value is the converted one and already in the field,
    and all requirements have been met. *)
Theorem C85_field_hooks fuel u w i r s' id raw v wh : p_unit fuel u (start w i) = (r, s') -> In (EvField id raw v wh) (str s') ->
  exists f, declared f (u_items u) /\ field_id f = id /\ rightly f raw v wh.
Proof.
  intros H HI. destruct (unit_story _ _ _ _ _ H) as (t & wi & mid & ri & dn & tl & F & -> & _ & (A & _) & D & T). cbn in F. rewrite F in HI.
  destruct HI as [X|HI]; [discriminate|]. apply in_app_or in HI as [HI|HI]; [eauto|]. exfalso.
  apply in_app_or in HI as [HI|HI].
  - destruct D as [-> |(wd & -> & _)]; [destruct HI|destruct HI as [X|[]]; discriminate].
  - destruct T as [(_ & _ & _ & ->)|[(wd & wf & _ & _ & -> & _)|(e0 & we & _ & [(e & _ & _ & ->)|(wf & _ & _ & _ & ->)])]]; cbn in HI; intuition discriminate.
Qed.
(** In particular, it sees the value in the field. *)
Theorem C85_hook_sees_value fuel u w i r s' id raw v wh : p_unit fuel u (start w i) = (r, s') -> In (EvField id raw v wh) (str s') ->
  (forall f, declared f (u_items u) -> field_id f = id -> keeps_value f) -> get (self wh) id = Some v.
Proof.
  intros H HI HK. destruct (C85_field_hooks _ _ _ _ _ _ _ _ _ _ H HI) as (f & D & <- & _ & (w0 & _ & S1 & _) & _).
  rewrite (S1 (HK _ D eq_refl)). cbn. rewrite Nat.eqb_refl. reflexivity.
Qed.

(** Hooks run in the order of the fields, at most once each: whatever the outcome. *)
Theorem C85_hook_order fuel u w i r s' : p_unit fuel u (start w i) = (r, s') -> subseq (hooked (str s')) (written (u_items u)).
Proof.
  intros H. destruct (unit_story _ _ _ _ _ H) as (t & wi & mid & ri & dn & tl & F & -> & _ & (_ & _ & C & _) & D & T). cbn in F. rewrite F.
  cbn. rewrite !hooked_app. assert (hooked dn = []) as -> by (destruct D as [-> |(wd & -> & _)]; reflexivity).
  assert (hooked tl = []) as ->
    by (destruct T as [(_ & _ & _ & ->)|[(wd & wf & _ & _ & -> & _)|(e0 & we & _ & [(e & _ & _ & ->)|(wf & _ & _ & _ & ->)])]]; reflexivity).
  rewrite !app_nil_r. exact C.
Qed.

(** The %error hook of a field runs only for a field that has one; at most once; only if parsing fails; and no other hook of
    the unit runs after it, but for %error and %finally. *)
Theorem C85_field_error fuel u w i r s' id e we : p_unit fuel u (start w i) = (r, s') -> In (EvFieldErr id e we) (str s') ->
  (exists e', r = Err e')
  /\ (exists f, declared f (u_items u) /\ field_id f = id /\ field_ehook f <> None)
  /\ exists a b, str s' = a ++ EvFieldErr id e we :: b
       /\ (forall x, In x a -> is_field_err x = false) /\ (forall x, In x b -> (exists e1 w1, x = EvError e1 w1) \/ exists w1, x = EvFinally w1).
Proof.
  intros H HI. destruct (unit_story _ _ _ _ _ H) as (t & wi & mid & ri & dn & tl & F & -> & _ & (_ & B & _ & _ & E & E2) & D & T). cbn in F. rewrite F in *.
  assert (HM : In (EvFieldErr id e we) mid).
  { destruct HI as [X|HI]; [discriminate|]. apply in_app_or in HI as [HI|HI]; [exact HI|]. exfalso. apply in_app_or in HI as [HI|HI].
    - destruct D as [-> |(wd & -> & _)]; [destruct HI|destruct HI as [X|[]]; discriminate].
    - destruct T as [(_ & _ & _ & ->)|[(wd & wf & _ & _ & -> & _)|(e0 & we0 & _ & [(e1 & _ & _ & ->)|(wf & _ & _ & _ & ->)])]]; cbn in HI; intuition discriminate. }
  destruct E as [E|(t0 & id' & e' & w' & -> & E & e'' & ->)]; [rewrite (E _ HM) in * || (pose proof (E _ HM); discriminate)|].
  apply in_app_or in HM as [HM|[HM|[]]]; [apply E in HM; discriminate|]. inversion HM; subst.
  destruct D as [-> |(wd & _ & X & _)]; [|discriminate]. cbn [app].
  split; [|split].
  - destruct T as [(_ & X & _)|[(wd & wf & X & _)|(e0 & we0 & _ & [(e1 & _ & -> & ->)|(wf & _ & _ & -> & ->)])]]; try discriminate; eauto.
  - apply (B _ e we). apply in_or_app. right. left. reflexivity.
  - exists (EvInit wi :: t0), tl. split; [cbn; rewrite <- app_assoc; reflexivity|]. split.
    + intros x [<-|X]; [reflexivity|auto].
    + intros x X. destruct T as [(_ & _ & _ & ->)|[(wd & wf & Y & _)|(e0 & we0 & _ & [(e1 & _ & _ & ->)|(wf & _ & _ & _ & ->)])]]; try discriminate; cbn in X; intuition subst; eauto.
Qed.

(** ** Conditions *)
(** A field whose condition does not hold is as if it was not there. *)
Theorem C85_condition_false fuel id anon c t conv reqs hook ehook s : c (sw s) VVoid = Val false ->
  p_field fuel (Field id anon (Some c) t conv reqs hook ehook) s = (Ok tt, s).
Proof. intros H. cbn [p_field]. destruct ehook; unfold try_, bind, eval; rewrite H; reflexivity. Qed.
(** ... and one whose condition holds as if there was no condition *)
Theorem C85_condition_true fuel id anon c t conv reqs hook ehook s : c (sw s) VVoid = Val true ->
  p_field fuel (Field id anon (Some c) t conv reqs hook ehook) s = p_field fuel (Field id anon None t conv reqs hook ehook) s.
Proof.
  intros H. cbn [p_field].
  match goal with |- (match ehook with None => do b <- eval c VVoid; if b then ?X else _ | _ => _ end) s = _ =>
    assert (E : (do b <- eval c VVoid; if b then X else ret tt) s = X s) by (unfold bind at 1, eval at 1; rewrite H; reflexivity) end.
  destruct ehook; [unfold try_; rewrite E; reflexivity|exact E].
Qed.

(** switch: the first case that lists the value, else the default, else an error. *)
Fixpoint cases_of (l : list (list val * items)) : cases :=
  match l with [] => CNil | (vs, p) :: r => CCons (map (fun v => fun _ _ => Val v) vs) p (cases_of r) end.
Theorem C85_switch fuel e l d s v : e (sw s) VVoid = Val v ->
  p_item fuel (ISwitch e (cases_of l) d) s =
    match find (fun c => existsb (val_eqb v) (fst c)) l with
    | Some (_, p) => p_items fuel p s
    | None => match d with DSome p => p_items fuel p s | DNone => (Err e_nocase, s) end
    end.
Proof.
  intros H. cbn [p_item]. unfold bind at 1, eval. rewrite H.
  assert (M : forall vs s, matches val_eqb v (map (fun v => fun _ _ => Val v) vs) s = (Ok (existsb (val_eqb v) vs), s)).
  { induction vs as [|x vs IH]; intros s0; [reflexivity|]. cbn [map matches existsb]. unfold bind, eval. destruct (val_eqb v x); [reflexivity|]. apply IH. }
  induction l as [|[vs p] l IH]; cbn [cases_of p_cases find fst].
  - destruct d; reflexivity.
  - unfold bind. rewrite M. destruct (existsb (val_eqb v) vs); [reflexivity|exact IH].
Qed.
(** equality of the values one can switch over *)
Theorem C85_switch_equality : (forall m n, val_eqb (VInt m) (VInt n) = true <-> m = n) /\ (forall a b, val_eqb (VBytes a) (VBytes b) = true <-> a = b).
Proof.
  split; [intros; apply Nat.eqb_eq|]. cbn. induction a as [|x a IH]; destruct b as [|y b]; cbn; try (split; congruence).
  rewrite andb_true_iff, Nat.eqb_eq, IH. split; [intros [-> ->]; reflexivity|intros E; inversion E; auto].
Qed.

(** ** Sub-units *)
(** The hooks of a sub-unit have all run before the hook of its field. *)
Theorem C85_subunit_first fuel id anon u conv reqs h s s' :
  p_field fuel (Field id anon None (TSub u) conv reqs (Some h) None) s = (Ok tt, s') ->
  exists t wd wf raw v w, str s' = str s ++ [EvSub (t ++ [EvDone wd; EvFinally wf]); EvField id raw v w].
Proof.
  intros H. cbn [p_field] in H.
  apply bind_inv in H as [(raw & s1 & E1 & H)|[(e & _ & X)|[_ X]]]; try discriminate.
  apply bind_inv in H as [(v & s2 & E2 & H)|[(e & _ & X)|[_ X]]]; try discriminate. apply pure_convert in E2. subst s2.
  apply bind_inv in H as [([] & s3 & E3 & H)|[(e & _ & X)|[_ X]]]; try discriminate.
  assert (S3 : str s3 = str s1) by (destruct anon; [apply ret_inv in E3 as [_ ->]; reflexivity|apply quiet_set_self in E3; exact E3]).
  apply bind_inv in H as [([] & s4 & E4 & H)|[(e & _ & X)|[_ X]]]; try discriminate. apply pure_requires in E4. subst s4.
  apply callc_inv in H as [_ ->]. cbn [str]. rewrite S3. clear E3 S3.
  cbn [p_type] in E1. apply bind_inv in E1 as [(w & s5 & E5 & H)|[(e & _ & X)|[_ X]]]; try discriminate. apply gets_inv in E5 as [_ ->].
  apply bind_inv in H as [([] & s5 & E5 & H)|[(e & _ & X)|[_ X]]]; try discriminate.
  assert (S5 : str s5 = str s) by (inversion E5; reflexivity).
  destruct (wrap EvSub (p_unit fuel u) s5) as [r6 s6] eqn:E6. unfold wrap in E6.
  destruct (p_unit fuel u {| sw := sw s5; sin := sin s5; str := [] |}) as [r7 s7] eqn:E7. inversion E6; subst r7 s6.
  destruct r6; [destruct a| |].
  - destruct (C85_success fuel u (sw s5) (sin s5) s7 E7) as (wi & mid & wd & wf & F & _).
    cbn [str] in H. apply bind_inv in H as [([] & s8 & E8 & H)|[(e & _ & X)|[_ X]]]; try discriminate.
    apply ret_inv in H as [_ ->].
    assert (Hb : quiet (put {| self := self w; glob := glob (sw s7) |};; stored (dest id anon conv) (VUnit (self (sw s7))))).
    { apply quiet_bind; [apply quiet_put|]. intros _. apply quiet_stored. }
    apply Hb in E8. cbn [str] in E8. exists (EvInit wi :: mid), wd, wf, raw, v, (sw s3).
    rewrite E8, S5, F, <- app_assoc. reflexivity.
  - apply bind_inv in H as [([] & s8 & E8 & H)|[(e' & _ & X)|[_ X]]]; try discriminate.
  - discriminate.
Qed.

(** ** Containers *)
(** How the parsing of a container ends, and what is in it then; wherever it is kept, and whatever hook foreach does.
    [before], [after]: see [conditions]. *)
Theorem C85_container fuel m el each f d before after s v s' :
  conditions m before after -> kept d each el ->
  p_type fuel (TList m el each) f d s = (Ok v, s') ->
  exists t l, v = VList l /\ str s' = str s ++ [EvList t] /\ ended f each before after l t /\ sees_previous d t
    /\ (match d with None => True | Some x => get (self (sw s')) x = Some (VList l) end)
    /\ match m with
       | LCount n => exists k w, n w VVoid = Val k /\ ((length l = k /\ parsed t = l) \/ (length l < k /\ length (parsed t) > length l))
       | LEod => sin s' = [] \/ length (parsed t) > length l
       | LUntilIncl _ => length (parsed t) > length l \/ exists l0 x, l = l0 ++ [x] /\ after x = true
       | _ => length (parsed t) > length l
       end.
Proof. apply list_ok. Qed.

(** The same without foreach, for each kind of container. The elements of the container are those parsed ... *)
(** ... [n] of them, *)
Theorem C85_count fuel n el f d s v s' : no_nested el -> p_type fuel (TList (LCount n) el None) f d s = (Ok v, s') ->
  exists t l w, v = VList l /\ str s' = str s ++ [EvList t] /\ parsed t = l /\ n w VVoid = Val (length l).
Proof.
  intros HN H. destruct (list_ok fuel (LCount n) el None f d (fun _ => false) (fun _ => false) s v s') as (t & l & -> & F & E & _ & _ & k & w & K & Z).
  - cbn. auto.
  - destruct d; cbn; auto.
  - exact H.
  - exists t, l, w. destruct Z as [[Z1 Z2]|[_ Z]]; [subst k; auto|]. exfalso.
    destruct E as [P _ _ _|x _ _ _ B _|l0 x _ P _ _ _ _ _|x _ _ S _ _]; [rewrite P in Z; lia|discriminate|rewrite P in Z; lia|destruct S as (? & ? & _ & [])].
Qed.
(** ... up to the end of the input, *)
Theorem C85_eod fuel el f d s v s' : no_nested el -> p_type fuel (TList LEod el None) f d s = (Ok v, s') ->
  exists t l, v = VList l /\ str s' = str s ++ [EvList t] /\ parsed t = l /\ sin s' = [].
Proof.
  intros HN H. destruct (list_ok fuel LEod el None f d (fun _ => false) (fun _ => false) s v s') as (t & l & -> & F & E & _ & _ & Z).
  - cbn. auto.
  - destruct d; cbn; auto.
  - exact H.
  - exists t, l. destruct E as [P _ _ _|x _ _ _ B _|l0 x _ P _ _ _ _ _|x _ _ S _ _]; [|discriminate| |destruct S as (? & ? & _ & [])];
      (destruct Z as [Z|Z]; [auto|exfalso; rewrite P in Z; lia]).
Qed.
(** ... before the first one that meets the condition, which is parsed but not added, *)
Theorem C85_until fuel c p el f d s v s' : only_dd c p -> no_nested el -> p_type fuel (TList (LUntil c) el None) f d s = (Ok v, s') ->
  exists t l x, v = VList l /\ str s' = str s ++ [EvList t] /\ parsed t = l ++ [x] /\ p x = true /\ forall y, In y l -> p y = false.
Proof.
  intros HP HN H. destruct (list_ok fuel (LUntil c) el None f d p (fun _ => false) s v s') as (t & l & -> & F & E & _ & _ & Z).
  - cbn. auto.
  - destruct d; cbn; auto.
  - exact H.
  - destruct E as [P _ _ _|x P _ _ B L|l0 x _ P _ _ _ _ _|x _ _ S _ _]; [rewrite P in Z; lia| |rewrite P in Z; lia|destruct S as (? & ? & _ & [])].
    exists t, l, x. repeat (split; [first [reflexivity|assumption]|]). intros y Hy. apply L. exact Hy.
Qed.
(** ... up to and including it, *)
Theorem C85_until_including fuel c p el f d s v s' : only_dd c p -> no_nested el -> p_type fuel (TList (LUntilIncl c) el None) f d s = (Ok v, s') ->
  exists t l x, v = VList (l ++ [x]) /\ str s' = str s ++ [EvList t] /\ parsed t = l ++ [x] /\ p x = true /\ forall y, In y l -> p y = false.
Proof.
  intros HP HN H. destruct (list_ok fuel (LUntilIncl c) el None f d (fun _ => false) p s v s') as (t & l & -> & F & E & _ & _ & Z).
  - cbn. auto.
  - destruct d; cbn; auto.
  - exact H.
  - destruct E as [P _ _ L|x _ _ _ B _|l0 x -> P _ _ _ A L|x _ _ S _ _]; [|discriminate| |destruct S as (? & ? & _ & [])].
    + exfalso. destruct Z as [Z|(l0 & x & -> & Z)]; [rewrite P in Z; lia|]. destruct (L x) as [_ L']; [apply in_or_app; right; left; reflexivity|congruence].
    + exists t, l0, x. repeat (split; [first [reflexivity|assumption]|]). intros y Hy. apply L. exact Hy.
Qed.
(** ... or as long as the condition is met; the first that does not meet it is parsed but not added. *)
Theorem C85_while fuel c p el f d s v s' : only_dd c p -> no_nested el -> p_type fuel (TList (LWhile c) el None) f d s = (Ok v, s') ->
  exists t l x, v = VList l /\ str s' = str s ++ [EvList t] /\ parsed t = l ++ [x] /\ p x = false /\ forall y, In y l -> p y = true.
Proof.
  intros HP HN H. destruct (list_ok fuel (LWhile c) el None f d (fun v => negb (p v)) (fun _ => false) s v s') as (t & l & -> & F & E & _ & _ & Z).
  - cbn. split; [|auto]. intros w v0. rewrite negb_involutive. apply HP.
  - destruct d; cbn; auto.
  - exact H.
  - destruct E as [P _ _ _|x P _ _ B L|l0 x _ P _ _ _ _ _|x _ _ S _ _]; [rewrite P in Z; lia| |rewrite P in Z; lia|destruct S as (? & ? & _ & [])].
    exists t, l, x. repeat (split; [first [reflexivity|assumption]|]). split; [apply negb_true_iff; exact B|]. intros y Hy. destruct (L y Hy) as [L1 _]. apply negb_false_iff. exact L1.
Qed.
(** The elements come from the input: for integers of [k] bytes, one after the other, and no other input is taken. *)
Theorem C85_integers fuel k reqs f m each d s v s' :
  p_type fuel (TList m (Elem (TUInt k) None reqs) each) f d s = (Ok v, s') ->
  exists t chunks, str s' = str s ++ [EvList t] /\ parsed t = map (fun c => VInt (be c)) chunks
    /\ sin s = concat chunks ++ sin s' /\ Forall (fun c => length c = k) chunks.
Proof. apply int_list. Qed.
(** All elements meet their requirements: also one that is parsed but not added. *)
Theorem C85_element_requires fuel m t0 conv reqs each f d s r s' :
  p_type fuel (TList m (Elem t0 conv reqs) each) f d s = (r, s') -> r <> Div ->
  exists t, str s' = str s ++ [EvList t] /\ forall v w, In (EvItem v w) t -> Forall (fun q => q w v = Val true) reqs.
Proof. apply list_reqs. Qed.

(** ** Ending *)
(** The number of loop iterations allowed does not matter once parsing ends within it. *)
Theorem C85_iterations fuel fuel' u s r s' : fuel <= fuel' -> p_unit fuel u s = (r, s') -> r <> Div -> p_unit fuel' u s = (r, s').
Proof. intros Hn H Hr. destruct (all_mono fuel fuel' Hn) as (HU & _). apply HU; assumption. Qed.
(** Parsing ends if containers end by number, by the end of the input, or if their elements cannot be empty. *)
Theorem C85_ends fuel u w i : ends_u u -> length i < fuel -> fst (p_unit fuel u (start w i)) <> Div.
Proof.
  intros He Hn. destruct (p_unit fuel u (start w i)) as [r s'] eqn:E. destruct (all_term fuel) as (HU & _).
  apply HU in E as [E _]; [exact E|exact He|exact Hn].
Qed.

(** ** What hooks do counts *)
(** A field without a %error hook of its own: if parsing, conversion and requirements go well, the hook decides; what it does
    to the unit and the global variables lasts. *)
Theorem C85_hook_acts fuel id anon t conv reqs h s raw v w s1 :
  p_type fuel t id (dest id anon conv) s = (Ok raw, s1) ->
  match conv with None => v = raw | Some c => c (sw s1) raw = Val v end ->
  (anon = false /\ t <> TVoid /\ w = storing id v (sw s1) \/ (anon = true \/ t = TVoid) /\ w = sw s1) ->
  Forall (fun q => q w raw = Val true) reqs ->
  p_field fuel (Field id anon None t conv reqs (Some h) None) s =
    (match snd (h v w) with None => Ok tt | Some e => Err e end,
     {| sw := fst (h v w); sin := sin s1; str := str s1 ++ [EvField id raw v w] |}).
Proof.
  intros HT HC HW HR. cbn [p_field]. unfold bind at 1. rewrite HT.
  assert (C : convert conv raw s1 = (Ok v, s1)) by (destruct conv as [c|]; cbn; unfold eval, ret; rewrite HC; reflexivity).
  unfold bind at 1. rewrite C. unfold bind at 1.
  assert (S1 : exists s2, (if anon then ret tt else match t with TVoid => ret tt | _ => set_self id v end) s1 = (Ok tt, s2)
     /\ s2 = {| sw := w; sin := sin s1; str := str s1 |}).
  { destruct HW as [(-> & Ht & ->)|([-> | ->] & ->)].
    - eexists. split; [|reflexivity]. destruct t; try reflexivity. congruence.
    - exists s1. split; [reflexivity|destruct s1; reflexivity].
    - exists s1. split; [destruct anon; reflexivity|destruct s1; reflexivity]. }
  destruct S1 as (s2 & -> & ->).
  assert (Q : requires reqs raw {| sw := w; sin := sin s1; str := str s1 |} = (Ok tt, {| sw := w; sin := sin s1; str := str s1 |})).
  { clear -HR. induction HR as [|q l Hq _ IH]; [reflexivity|]. cbn [requires]. unfold bind, eval. cbn [sw]. rewrite Hq. exact IH. }
  unfold bind at 1. rewrite Q. unfold call, bind, gets, emit, put, ret, check, throw. cbn. destruct (h v w) as [w' [e|]]; reflexivity.
Qed.
(** The %error hook of a field gets the error and the state after the failure; the error goes on, or that of the hook. *)
Theorem C85_field_error_acts fuel id anon cond t conv reqs hook h s r s1 :
  p_field fuel (Field id anon cond t conv reqs hook None) s = (r, s1) ->
  p_field fuel (Field id anon cond t conv reqs hook (Some h)) s =
    match r with
    | Err e => (Err (match snd (h e (sw s1)) with None => e | Some e' => e' end),
                {| sw := fst (h e (sw s1)); sin := sin s1; str := str s1 ++ [EvFieldErr id e (sw s1)] |})
    | _ => (r, s1)
    end.
Proof.
  intros H. cbn [p_field] in *. unfold try_. rewrite H. destruct r as [[]|e|]; try reflexivity.
  unfold call, bind, gets, emit, put, ret, check, throw. cbn. destruct (h e (sw s1)) as [w' [e'|]]; reflexivity.
Qed.
(** The hooks of a unit without &size: %init runs first, and what it does is seen by the fields; and so on. *)
Theorem C85_unit_hooks_act fuel init its reqs done error finally w i s1 :
  snd (init w) = None -> p_items fuel its {| sw := fst (init w); sin := i; str := [EvInit w] |} = (Ok tt, s1) ->
  Forall (fun q => q (sw s1) VVoid = Val true) reqs -> snd (done (sw s1)) = None ->
  let wf := fst (done (sw s1)) in
  p_unit fuel (Unit init None its reqs done error finally) (start w i) =
    (match snd (finally wf) with None => Ok tt | Some e => Err e end,
     {| sw := fst (finally wf); sin := sin s1; str := str s1 ++ [EvDone (sw s1); EvFinally wf] |}).
Proof.
  intros HI HP HR HD wf. cbn [p_unit]. unfold stages, limited.
  assert (E1 : (do r <- call EvInit init; check r) (start w i) = (Ok tt, {| sw := fst (init w); sin := i; str := [EvInit w] |})).
  { unfold call, bind, gets, emit, put, ret, check, throw, start. cbn. destruct (init w) as [w' [e|]]; cbn in *; [discriminate|reflexivity]. }
  assert (E2 : requires reqs VVoid s1 = (Ok tt, s1)).
  { clear -HR. induction HR as [|q l Hq _ IH]; [reflexivity|]. cbn [requires]. unfold bind, eval. rewrite Hq. exact IH. }
  assert (E3 : (do r <- call EvDone done; check r) s1 = (Ok tt, {| sw := wf; sin := sin s1; str := str s1 ++ [EvDone (sw s1)] |})).
  { unfold call, bind, gets, emit, put, ret, check, throw, wf. cbn. destruct (done (sw s1)) as [w' [e|]]; cbn in *; [discriminate|reflexivity]. }
  unfold bind at 1, try_ at 1. unfold bind at 1. rewrite E1. unfold bind at 1. rewrite HP. unfold bind at 1. rewrite E2, E3.
  unfold call, bind, gets, emit, put, ret, check, throw. cbn. rewrite <- app_assoc. cbn. destruct (finally wf) as [w' [e|]]; reflexivity.
Qed.
(** A failing field: %error gets its error, in the state it left behind; %finally that of %error. *)
Theorem C85_unit_error_acts fuel init its reqs done error finally w i e s1 :
  snd (init w) = None -> p_items fuel its {| sw := fst (init w); sin := i; str := [EvInit w] |} = (Err e, s1) ->
  snd (error e (sw s1)) = None ->
  let wf := fst (error e (sw s1)) in
  p_unit fuel (Unit init None its reqs done error finally) (start w i) =
    (Err (match snd (finally wf) with None => e | Some e' => e' end),
     {| sw := fst (finally wf); sin := sin s1; str := str s1 ++ [EvError e (sw s1); EvFinally wf] |}).
Proof.
  intros HI HP HD wf. cbn [p_unit]. unfold stages, limited.
  assert (E1 : (do r <- call EvInit init; check r) (start w i) = (Ok tt, {| sw := fst (init w); sin := i; str := [EvInit w] |})).
  { unfold call, bind, gets, emit, put, ret, check, throw, start. cbn. destruct (init w) as [w' [x|]]; cbn in *; [discriminate|reflexivity]. }
  unfold bind at 1, try_ at 1. unfold bind at 1. rewrite E1. unfold bind at 1. rewrite HP.
  unfold wf in *. clear wf. unfold call, bind, gets, emit, put, ret, check, throw. cbn. destruct (error e (sw s1)) as [w' [x|]]; cbn in *; [discriminate|].
  rewrite <- app_assoc. cbn. destruct (finally w') as [w2 [x|]]; reflexivity.
Qed.
(** The size of a unit: if parsing the first [n] bytes alone uses all of them, so does parsing the whole input - which
    continues after them. *)
Theorem C85_size fuel init its reqs done error finally e n w i s1 :
  snd (init w) = None -> e (fst (init w)) VVoid = Val n -> n <= length i ->
  p_unit fuel (Unit init None its reqs done error finally) (start w (firstn n i)) = (Ok tt, s1) -> sin s1 = [] ->
  p_unit fuel (Unit init (Some e) its reqs done error finally) (start w i) = (Ok tt, {| sw := sw s1; sin := skipn n i; str := str s1 |}).
Proof.
  intros HI HE HN H HS. cbn [p_unit] in *. unfold stages, limited in *.
  assert (E1 : forall j, (do r <- call EvInit init; check r) (start w j) = (Ok tt, {| sw := fst (init w); sin := j; str := [EvInit w] |})).
  { intros j. unfold call, bind, gets, emit, put, ret, check, throw, start. cbn. destruct (init w) as [w' [x|]]; cbn in *; [discriminate|reflexivity]. }
  match type of H with (try_ (?I;; ?B) ?h;; ?F) _ = _ => set (body := B) in *; set (hd := h) in *; set (fin := F) in * end.
  apply bind_inv in H as [([] & s2 & E2 & H)|[(x & _ & X)|[_ X]]]; try discriminate.
  unfold try_ in E2. unfold bind at 1 in E2. rewrite E1 in E2.
  destruct (body {| sw := fst (init w); sin := firstn n i; str := [EvInit w] |}) as [r3 s3] eqn:E3.
  assert (r3 = Ok tt /\ s3 = s2) as [-> ->].
  { destruct r3 as [[]|x|]; [inversion E2; auto| |discriminate]. exfalso. unfold hd in E2.
    apply bind_inv in E2 as [([] & s4 & _ & E2)|[(y & _ & X)|[_ X]]]; try discriminate.
    apply bind_inv in E2 as [([] & s5 & _ & E2)|[(y & _ & X)|[_ X]]]; discriminate. }
  assert (S2 : sin s2 = [] /\ s1 = {| sw := fst (finally (sw s2)); sin := []; str := str s2 ++ [EvFinally (sw s2)] |} /\ snd (finally (sw s2)) = None).
  { unfold fin in H. apply callc_inv in H as [Z ->]. cbn in HS. destruct (snd (finally (sw s2))); [discriminate|]. rewrite HS. auto. }
  destruct S2 as (S2 & -> & S3). unfold bind at 1, try_ at 1. unfold bind at 1. rewrite E1.
  unfold bind at 1, eval at 1. cbn [sw]. rewrite HE. unfold bind at 1, gets at 1. cbn [sin]. unfold bind at 1, putin at 1. cbn [sw str].
  unfold bind at 1. rewrite E3. unfold bind at 1, gets at 1. rewrite S2. apply Nat.ltb_ge in HN. rewrite HN. cbn [negb orb length Nat.eqb].
  unfold putin, fin, call, bind, gets, emit, put, ret, check, throw. cbn. destruct (finally (sw s2)) as [w' [x|]]; cbn in *; [discriminate|reflexivity].
Qed.
(** ... and if a unit with a size succeeds, then with exactly that much input. *)
Theorem C85_size_exact fuel init its reqs done error finally e w i s' :
  p_unit fuel (Unit init (Some e) its reqs done error finally) (start w i) = (Ok tt, s') ->
  exists n, e (fst (init w)) VVoid = Val n /\ n <= length i /\ sin s' = skipn n i.
Proof.
  intros H. cbn [p_unit] in *. unfold stages, limited in *.
  match type of H with (try_ (?I;; _) ?h;; ?F) _ = _ => set (hd := h) in *; set (fin := F) in * end.
  apply bind_inv in H as [([] & s2 & E2 & H)|[(x & _ & X)|[_ X]]]; try discriminate.
  apply callc_inv in H as [_ ->]. cbn [sin]. unfold try_ in E2.
  match type of E2 with match ?m ?s with _ => _ end = _ => destruct (m s) as [r3 s3] eqn:E3 end.
  assert (r3 = Ok tt /\ s3 = s2) as [-> ->].
  { destruct r3 as [[]|x|]; [inversion E2; auto| |discriminate]. exfalso. unfold hd in E2.
    apply bind_inv in E2 as [([] & s4 & _ & E2)|[(y & _ & X)|[_ X]]]; try discriminate.
    apply bind_inv in E2 as [([] & s5 & _ & E2)|[(y & _ & X)|[_ X]]]; discriminate. }
  apply bind_inv in E3 as [([] & s3 & E4 & E3)|[(x & _ & X)|[_ X]]]; try discriminate. apply callc_inv in E4 as [_ ->]. cbv beta in E3.
  apply bind_inv in E3 as [(n & s4 & E4 & E3)|[(x & _ & X)|[_ X]]]; try discriminate. apply eval_inv in E4 as [-> [(n' & E4 & En)|(x & _ & X)]]; [inversion En; subst n'|discriminate]. cbn [sw start] in E4.
  apply bind_inv in E3 as [(i1 & s5 & E5 & E3)|[(x & _ & X)|[_ X]]]; try discriminate. apply gets_inv in E5 as [E5 ->]. inversion E5; subst i1. cbn [sw sin str start] in E3. cbv beta in E3.
  apply bind_inv in E3 as [([] & s6 & E6 & E3)|[(x & _ & X)|[_ X]]]; try discriminate. clear E6.
  apply bind_inv in E3 as [([] & s7 & E7 & E3)|[(x & _ & X)|[_ X]]]; try discriminate. clear E7.
  apply bind_inv in E3 as [(l & s8 & E8 & E3)|[(x & _ & X)|[_ X]]]; try discriminate.
  destruct (length i <? n) eqn:Z; cbn [orb] in E3; [discriminate|]. apply Nat.ltb_ge in Z.
  destruct (negb (length l =? 0)); [discriminate|]. inversion E3. exists n. cbn. auto.
Qed.

(** ** Values *)
(** A literal has to be there, and its bytes are taken. *)
Theorem C85_literal fuel l f d s v s' : p_type fuel (TLit l) f d s = (Ok v, s') <->
  v = VBytes l /\ sin s = l ++ sin s' /\ sw s' = sw s /\ str s' = str s.
Proof.
  assert (R : forall x y, list_nat_eqb x y = true <-> x = y).
  { induction x as [|a x IH]; destruct y as [|b y]; cbn; try (split; congruence).
    rewrite andb_true_iff, Nat.eqb_eq, IH. split; [intros [-> ->]; reflexivity|intros E; inversion E; auto]. }
  cbn [p_type]. unfold take, bind, gets, putin, ret, throw. destruct (length l <=? length (sin s)) eqn:E; cbn.
  - destruct (list_nat_eqb (firstn (length l) (sin s)) l) eqn:Q; cbn.
    + apply R in Q. rewrite Q. split.
      * intros X. inversion X. cbn. repeat split. rewrite <- Q at 1. apply eq_sym, firstn_skipn.
      * intros (-> & X & Y & Z). destruct s' as [sw' sin' str']; cbn in *. subst. rewrite X, skipn_app, Nat.sub_diag, skipn_all. reflexivity.
    + split; [discriminate|]. intros (-> & X & Y & Z). rewrite X, firstn_app, Nat.sub_diag, firstn_all in Q. cbn in Q. rewrite app_nil_r in Q.
      assert (list_nat_eqb l l = true) by (apply R; reflexivity). congruence.
  - split; [discriminate|]. intros (_ & X & _). apply Nat.leb_gt in E. rewrite X, app_length in E. lia.
Qed.
(** An integer: the bytes, most significant first. *)
Fixpoint big (l : list nat) : nat := match l with [] => 0 | x :: r => x * 256 ^ length r + big r end.
Lemma be_big l : be l = big l.
Proof.
  unfold be. assert (G : forall a, fold_left (fun a x => a * 256 + x) l a = a * 256 ^ length l + big l); [|apply (G 0)].
  induction l as [|x l IH]; intros a; [cbn; lia|]. cbn [fold_left length big]. rewrite IH, Nat.pow_succ_r'. ring.
Qed.
Theorem C85_uint fuel n f d s v s' : p_type fuel (TUInt n) f d s = (Ok v, s') <->
  exists b, v = VInt (big b) /\ length b = n /\ sin s = b ++ sin s' /\ sw s' = sw s /\ str s' = str s.
Proof.
  cbn [p_type]. unfold take, bind, gets, putin, ret, throw. destruct (n <=? length (sin s)) eqn:E; cbn.
  - apply Nat.leb_le in E. split.
    + intros X. inversion X. cbn. exists (firstn n (sin s)). rewrite be_big, firstn_length, firstn_skipn. repeat split. lia.
    + intros (b & -> & <- & X & Y & Z). destruct s' as [sw' sin' str']; cbn in *. subst.
      rewrite X, firstn_app, skipn_app, Nat.sub_diag, firstn_all, skipn_all. cbn. rewrite app_nil_r, be_big. reflexivity.
  - split; [discriminate|]. intros (b & _ & <- & X & _). apply Nat.leb_gt in E. rewrite X, app_length in E. lia.
Qed.
(** Bytes: as many as &size says, or all. *)
Theorem C85_bytes fuel e n f d s v s' : e (sw s) VVoid = Val n -> p_type fuel (TBytes e) f d s = (Ok v, s') <->
  exists b, v = VBytes b /\ length b = n /\ sin s = b ++ sin s' /\ sw s' = sw s /\ str s' = str s.
Proof.
  intros HE. cbn [p_type]. unfold eval, take, bind, gets, putin, ret, throw. rewrite HE. destruct (n <=? length (sin s)) eqn:E; cbn.
  - apply Nat.leb_le in E. split.
    + intros X. inversion X. cbn. exists (firstn n (sin s)). rewrite firstn_length, firstn_skipn. repeat split. lia.
    + intros (b & -> & <- & X & Y & Z). destruct s' as [sw' sin' str']; cbn in *. subst.
      rewrite X, firstn_app, skipn_app, Nat.sub_diag, firstn_all, skipn_all. cbn. rewrite app_nil_r. reflexivity.
  - split; [discriminate|]. intros (b & _ & <- & X & _). apply Nat.leb_gt in E. rewrite X, app_length in E. lia.
Qed.
Theorem C85_rest fuel f d s : p_type fuel TRest f d s = (Ok (VBytes (sin s)), {| sw := sw s; sin := []; str := str s |}).
Proof. reflexivity. Qed.
(** A block of if: one branch or the other. *)
Theorem C85_if fuel c a b s x : c (sw s) VVoid = Val x -> p_item fuel (IBlock c a b) s = p_items fuel (if x then a else b) s.
Proof. intros H. cbn [p_item]. unfold bind, eval. rewrite H. destruct x; reflexivity. Qed.
(** A sub-unit is parsed as it would be on its own, from the rest of the input, as a new instance; it does not touch the fields
    of the outer unit, but for the one it is stored in; what its hooks do to global variables lasts. *)
Theorem C85_subunit_alone fuel u f d s r s1 : p_unit fuel u (start {| self := []; glob := glob (sw s) |} (sin s)) = (r, s1) -> r <> Div ->
  p_type fuel (TSub u) f d s =
    (match r with Ok _ => Ok (VUnit (self (sw s1))) | Err e => Err e | Div => Div end,
     {| sw := match d with
              | Some x => storing x (VUnit (self (sw s1))) {| self := self (sw s); glob := glob (sw s1) |}
              | None => {| self := self (sw s); glob := glob (sw s1) |}
              end; sin := sin s1; str := str s ++ [EvSub (str s1)] |}).
Proof.
  intros H HR. unfold start in H. cbn [p_type]. unfold bind at 1, gets at 1. unfold bind at 1, put at 1. unfold wrap. cbn [sw sin str]. rewrite H.
  destruct r as [[]|e|]; [| |congruence]; destruct d; reflexivity.
Qed.

(** An element that does not take input where there is some is an error, unless it ends the loop. *)
Theorem C85_no_progress fuel c m conv reqs each f d s s1 acc : sin s1 = sin s -> sin s <> [] -> m = LUntil c \/ m = LUntilIncl c \/ m = LWhile c ->
  p_elem (S fuel) (Elem TVoid conv reqs) f m each d [] (match d with Some x => {| sw := storing x (VList []) (sw s); sin := sin s; str := [] |} | None => {| sw := sw s; sin := sin s; str := [] |} end)
    = (Ok (false, acc), s1) ->
  fst (p_type (S fuel) (TList m (Elem TVoid conv reqs) each) f d s) = Err e_loop.
Proof.
  intros HS HN HM HE. cbn [p_type].
  assert (L : forall body s0, body [] s0 = (Ok (false, acc), s1) -> sin s0 = sin s ->
     fst ((do l <- foreach (S fuel) false body []; match d with None => ret (VList l) | Some x => do w <- gets sw; match get (self w) x with Some v => ret v | None => throw e_input end end) s0) = Err e_loop).
  { intros body s0 HB H0. unfold bind at 1. cbn [foreach]. unfold bind at 1, gets at 1. cbn [andb]. unfold bind at 1. rewrite HB. cbn [fst snd].
    unfold progress, bind, gets, throw. rewrite HS, H0, Nat.eqb_refl. destruct (sin s); [congruence|]. reflexivity. }
  assert (W : forall c0 (m0 : M val) s0, fst (wrap c0 m0 s0) = fst (m0 {| sw := sw s0; sin := sin s0; str := [] |})).
  { intros c0 m0 s0. unfold wrap. destruct (m0 _). reflexivity. }
  unfold bind at 1. destruct d as [x|]; cbn [stored].
  - unfold set_self at 1, bind at 1, gets at 1, put at 1. rewrite W. destruct HM as [-> |[-> | ->]]; apply L; auto.
  - unfold ret at 1. rewrite W. destruct HM as [-> |[-> | ->]]; apply L; auto.
Qed.
Example C85_ex_no_progress : fst (p_type 5 (TList (LUntil (fun _ _ => Val false)) (Elem TVoid None []) None) 1 (Some 1) (start {| self := []; glob := [] |} [4])) = Err e_loop.
Proof. reflexivity. Qed.

(** ** What does not hold *)
Definition nop : hook0 := fun w => (w, None).
Definition nope : hookE := fun _ w => (w, None).
(** "&while/&until: possible infinite loop" is an error - but not at the end of the input: then the loop goes on forever. *)
Definition forever : unit_ :=
  Unit nop None (ICons (IField (Field 1 false None (TList (LUntil (fun _ _ => Val false)) (Elem TRest None []) None) None [] None None)) INil) [] nop nope nop.
Theorem C85_REFUTED_loops_end : exists u, forall w fuel, fst (p_unit fuel u (start w [])) = Div.
Proof.
  exists forever. intros w fuel.
  assert (L : forall n acc s, sin s = [] -> get (self (sw s)) 1 = Some (VList acc) ->
    fst (foreach n false (fun acc => p_elem fuel (Elem TRest None []) 1 (LUntil (fun _ _ => Val false)) None (Some 1) acc) acc s) = Div).
  { induction n as [|n IH]; intros acc s Hi Hs; [reflexivity|]. cbn [foreach]. unfold bind at 1, gets at 1. cbn [andb]. rewrite Hi.
    unfold p_elem, p_type, convert, new_item, requires, run_each, push_elem, push, set_self, progress, bind, gets, eval, ret, put, putin, emit.
    cbn. rewrite Hi, Hs. cbn. apply IH; reflexivity. }
  assert (F : forall A B (m : M A) (k : A -> M B) s, fst (m s) = Div -> fst (bind m k s) = Div).
  { intros A B m k s H. unfold bind. destruct (m s) as [[a|e|] s1]; cbn in H |- *; congruence. }
  assert (T : forall A (m : M A) h s, fst (m s) = Div -> fst (try_ m h s) = Div).
  { intros A m h s H. unfold try_. destruct (m s) as [[a|e|] s1]; cbn in H |- *; congruence. }
  assert (W : forall A c (m : M A) s, fst (m {| sw := sw s; sin := sin s; str := [] |}) = Div -> fst (wrap c m s) = Div).
  { intros A c m s H. unfold wrap. destruct (m _) as [r s1]; cbn in H |- *; exact H. }
  assert (G : forall A B (m : M A) (k : A -> M B) s a s1, m s = (Ok a, s1) -> fst (k a s1) = Div -> fst (bind m k s) = Div).
  { intros A B m k s a s1 H1 H2. unfold bind. rewrite H1. exact H2. }
  unfold forever. cbn [p_unit p_items p_item p_field p_type]. unfold stages.
  apply F, T. eapply G; [cbn; reflexivity|]. unfold limited. do 3 apply F. cbn [dest stored]. eapply G; [cbn; reflexivity|]. apply W, F, L; reflexivity.
Qed.
(** "we keep running either %done or %error": with &size, both run. *)
Definition both : unit_ := Unit nop (Some (fun _ _ => Val 2)) (ICons (IField (Field 1 false None (TUInt 1) None [] None None)) INil) [] nop nope nop.
Theorem C85_REFUTED_done_or_error : exists fuel u w i wd e we,
  In (EvDone wd) (str (snd (p_unit fuel u (start w i)))) /\ In (EvError e we) (str (snd (p_unit fuel u (start w i)))).
Proof.
  exists 3, both, {| self := []; glob := [] |}, [7; 8]. cbn. do 3 eexists. split; [right; left; reflexivity|right; right; left; reflexivity].
Qed.
(** "Once %init triggers, %finally is guaranteed to eventually execute": not if %error fails. *)
Definition nofinally : unit_ := Unit nop None (ICons (IField (Field 1 false None (TUInt 1) None [] None None)) INil) [] nop (fun _ w => (w, Some 9)) nop.
Theorem C85_REFUTED_finally : exists fuel u w i, fst (p_unit fuel u (start w i)) <> Div
  /\ (exists wi, In (EvInit wi) (str (snd (p_unit fuel u (start w i))))) /\ forall wf, ~ In (EvFinally wf) (str (snd (p_unit fuel u (start w i)))).
Proof.
  exists 3, nofinally, {| self := []; glob := [] |}, []. cbn. split; [discriminate|]. split; [eexists; left; reflexivity|]. intuition discriminate.
Qed.

(** ** Examples: the hypotheses are met *)
(** x: uint8 &convert=($$ + 1) &requires=($$ < 5) { ... };
    switch ( self.x ) { 3 -> l: uint8[] &until=($$ == 0) foreach { if ( $$ == 9 ) stop; }; * -> r: bytes &eod; } *)
Definition ex_conv : expr val := fun _ v => match v with VInt n => Val (VInt (S n)) | _ => Exc 7 end.
Definition ex_req : expr bool := fun _ v => match v with VInt n => Val (n <? 5) | _ => Val false end.
Definition is_zero (v : val) : bool := match v with VInt 0 => true | _ => false end.
Definition ex_until : expr bool := fun _ v => Val (is_zero v).
Definition ex_each : hookS := fun v w => (w, match v with VInt 9 => true | _ => false end, None).
Definition ex_x : field := Field 1 false None (TUInt 1) (Some ex_conv) [ex_req] (Some (fun _ w => (w, None))) None.
Definition ex_l : field := Field 2 false None (TList (LUntil ex_until) (Elem (TUInt 1) None []) (Some ex_each)) None [] (Some (fun _ w => (w, None))) (Some nope).
Definition ex_r : field := Field 3 false None TRest None [] (Some (fun _ w => (w, None))) None.
Definition ex : unit_ :=
  Unit nop None (ICons (IField ex_x) (ICons (ISwitch (fun w _ => match get (self w) 1 with Some v => Val v | None => Exc 8 end)
    (cases_of [([VInt 3], ICons (IField ex_l) INil)]) (DSome (ICons (IField ex_r) INil))) INil)) [] nop nope nop.
Definition w0 : world := {| self := []; glob := [] |}.
Definition fields_of (s : st) : list (option val) := map (get (self (sw s))) [1; 2; 3].
Example C85_ex_until : let p := p_unit 9 ex (start w0 [2; 5; 6; 0; 8]) in
  fst p = Ok tt /\ fields_of (snd p) = [Some (VInt 3); Some (VList [VInt 5; VInt 6]); None] /\ hooked (str (snd p)) = [1; 2] /\ sin (snd p) = [8].
Proof. vm_compute. auto. Qed.
Example C85_ex_stop : let p := p_unit 9 ex (start w0 [2; 5; 9; 0; 8]) in
  fst p = Ok tt /\ fields_of (snd p) = [Some (VInt 3); Some (VList [VInt 5]); None] /\ sin (snd p) = [0; 8].
Proof. vm_compute. auto. Qed.
Example C85_ex_default : let p := p_unit 9 ex (start w0 [1; 5; 9]) in
  fst p = Ok tt /\ fields_of (snd p) = [Some (VInt 2); None; Some (VBytes [5; 9])] /\ hooked (str (snd p)) = [1; 3].
Proof. vm_compute. auto. Qed.
Example C85_ex_requires : let p := p_unit 9 ex (start w0 [5; 5; 9]) in
  fst p = Err e_requires /\ hooked (str (snd p)) = [] /\ get (self (sw (snd p))) 1 = Some (VInt 6).
Proof. vm_compute. auto. Qed.
Example C85_ex_partial : let p := p_unit 9 ex (start w0 [2; 5]) in
  fst p = Err e_input /\ fields_of (snd p) = [Some (VInt 3); Some (VList [VInt 5]); None]
  /\ (exists e w, In (EvFieldErr 2 e w) (str (snd p))) /\ (exists e w, In (EvError e w) (str (snd p))).
Proof. vm_compute. repeat split; do 2 eexists; repeat (first [left; reflexivity|right]). Qed.
Example C85_ex_ends : ends_u ex /\ conditions (LUntil ex_until) is_zero (fun _ => false) /\ kept (Some 2) (Some ex_each) (Elem (TUInt 1) None []).
Proof. cbn. unfold only_dd. intuition. Qed.
(** : Sub &size=1 of two: the outer unit goes on after it *)
Definition sized (n : nat) : unit_ := Unit nop (Some (fun _ _ => Val n)) (ICons (IField (Field 1 false None (TUInt 1) None [] None None)) INil) [] nop nope nop.
Definition outer : unit_ :=
  Unit nop None (ICons (IField (Field 1 false None (TSub (sized 1)) None [] (Some (fun _ w => (w, None))) None))
    (ICons (IField (Field 2 false None (TLit [8]) None [] (Some (fun _ w => (w, None))) (Some nope))) INil)) [] nop nope nop.
Example C85_ex_sized : let p := p_unit 3 outer (start w0 [7; 8; 9]) in
  fst p = Ok tt /\ fields_of (snd p) = [Some (VUnit [(1, VInt 7)]); Some (VBytes [8]); None] /\ sin (snd p) = [9].
Proof. vm_compute. auto. Qed.
Example C85_ex_literal : let p := p_unit 3 outer (start w0 [7; 7; 9]) in
  fst p = Err e_input /\ fields_of (snd p) = [Some (VUnit [(1, VInt 7)]); None; None] /\ exists e w, In (EvFieldErr 2 e w) (str (snd p)).
Proof. vm_compute. repeat split. do 2 eexists. right; right; right; left; reflexivity. Qed.
