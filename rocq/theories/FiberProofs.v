From Verif Require Import Base FiberPoolModel FiberModel FiberSpec.

Lemma fup_same {A} (m : nat -> A) k a : fup m k a k = a.
Proof. unfold fup. rewrite Nat.eqb_refl. reflexivity. Qed.
Lemma fup_other {A} (m : nat -> A) k a x : x <> k -> fup m k a x = m x.
Proof. intros H. unfold fup. apply Nat.eqb_neq in H. rewrite H. reflexivity. Qed.

Definition rfib (c : cstate) (r : nat) : option nat := match c_res c r with Some x => r_fiber x | None => None end.
Definition idle (fb : fiber) : Prop := (f_state fb = Init \/ f_state fb = Idle) /\ (f_saved fb = SFresh \/ f_saved fb = SIdle).
Definition saved_of (c : cstate) (g : option nat) : option saved :=
  match g with None => Some (c_main c) | Some f => option_map f_saved (c_fib c f) end.

Fixpoint ctx_of (fs : list nat) (st : list frame) : option nat :=
  match fs, st with
  | f :: fs', fr :: st' => match fr_kind fr with KDel => ctx_of fs' st' | _ => Some f end
  | _, _ => None
  end.
Definition kstate (kd : kind) : fstate := match kd with KRun => Running | _ => Aborting end.

Fixpoint chain (c : cstate) (fs : list nat) (st : list frame) : Prop :=
  match fs, st with
  | [], [] => True
  | f :: fs', fr :: st' =>
      (exists fb, c_fib c f = Some fb /\ f_state fb = kstate (fr_kind fr) /\ f_exn fb = None /\ f_caller fb = Some (hd_error fs')) /\
      saved_of c (hd_error fs') = Some (SCall (fr_res fr) f (fr_kind fr) (ctx_of fs' st') (fr_k fr)) /\
      match fr_kind fr with
      | KDel => c_res c (fr_res fr) = Some (mkRes None false None) /\ (forall r', rfib c r' <> Some f)
      | _ => c_res c (fr_res fr) = Some (mkRes (Some f) false None)
      end /\
      chain c fs' st'
  | _, _ => False
  end.

Definition rrel (c : cstate) (r : nat) (s : option astatus) : Prop :=
  match s with
  | None => c_res c r = None
  | Some (AFresh p) => exists f fb, c_res c r = Some (mkRes (Some f) false None) /\ c_fib c f = Some fb /\ idle fb /\
      f_fun fb = Some p /\ f_exn fb = None
  | Some (ASusp cl p) => exists f fb, c_res c r = Some (mkRes (Some f) false None) /\ c_fib c f = Some fb /\
      f_state fb = Yielded /\ f_saved fb = SYield cl p f /\ f_exn fb = None
  | Some AActive => exists x, c_res c r = Some x /\ r_done x = false
  | Some (ADone v) => c_res c r = Some (mkRes None true (Some v))
  | Some AFailed => c_res c r = Some (mkRes None true None)
  | Some AAborted => exists f fb, c_res c r = Some (mkRes (Some f) true None) /\ c_fib c f = Some fb /\ f_state fb = Idle /\ f_saved fb = SIdle
  end.

Record Rel (csz : nat) (c : cstate) (a : astate) (fs : list nat) : Prop := {
  rl_code : c_code c = a_code a;
  rl_n : c_nres c = a_n a;
  rl_cur : c_cur c = hd_error fs;
  rl_ctx : c_ctx c = ctx_of fs (a_stack a);
  rl_chain : chain c fs (a_stack a);
  rl_res : forall r, rrel c r (a_res a r);
  rl_act : forall r, In r (map fr_res (a_stack a)) -> a_res a r = Some AActive;
  rl_ndr : NoDup (map fr_res (a_stack a));
  rl_ndf : NoDup fs;
  rl_uniq : forall r1 r2 f, rfib c r1 = Some f -> rfib c r2 = Some f -> r1 = r2;
  rl_cache : forall f, In f (p_cache (c_pool c)) -> (exists fb, c_fib c f = Some fb /\ idle fb) /\ (forall r, rfib c r <> Some f) /\ ~ In f fs;
  rl_ndc : NoDup (p_cache (c_pool c));
  rl_held : forall r f, rfib c r = Some f -> c_fib c f <> None;
  rl_fb : forall f, c_fib c f <> None -> f < p_next (c_pool c);
  rl_rb : forall r, c_res c r <> None -> r < c_nres c }.

(** What a chain depends on. *)
Lemma chain_frame c c' st : forall fs, chain c fs st -> NoDup fs ->
  (forall f fb, In f fs -> c_fib c f = Some fb -> exists fb', c_fib c' f = Some fb' /\ f_state fb' = f_state fb /\ f_exn fb' = f_exn fb /\
     f_caller fb' = f_caller fb /\ (In f (tl fs) -> f_saved fb' = f_saved fb)) ->
  (fs <> [] -> c_main c' = c_main c) ->
  (forall r, In r (map fr_res st) -> c_res c' r = c_res c r) ->
  (forall f r, In f fs -> rfib c' r = Some f -> rfib c r = Some f) ->
  chain c' fs st.
Proof.
  induction st as [|fr st IH]; intros [|f fs]; cbn [chain]; auto.
  intros ((fb & E & ES & EE & EC) & SV & RR & CH) ND H1 H2 H3 H4.
  destruct (H1 f fb (or_introl eq_refl) E) as (fb' & E' & S' & X' & C' & _).
  split; [exists fb'; rewrite S', X', C'; auto|]. split.
  - rewrite <- SV. destruct fs as [|g fs]; cbn [hd_error saved_of].
    + rewrite H2; [reflexivity|discriminate].
    + cbn [hd_error saved_of] in SV. destruct (c_fib c g) as [gb|] eqn:EG; [|discriminate SV].
      destruct (H1 g gb (or_intror (or_introl eq_refl)) EG) as (gb' & EG' & _ & _ & _ & SG). rewrite EG'. cbn [option_map].
      rewrite SG by (left; reflexivity). reflexivity.
  - split.
    + destruct (fr_kind fr); [| |destruct RR as [RR RN]]; rewrite (H3 (fr_res fr) (or_introl eq_refl)); auto.
      split; [exact RR|]. intros r' Hr'. apply (RN r'). apply (H4 f); [left; reflexivity|exact Hr'].
    + inversion ND; subst. apply IH; auto.
      * intros g gb Hg EG. destruct (H1 g gb (or_intror Hg) EG) as (gb' & A1 & A2 & A3 & A4 & A5). exists gb'. repeat split; auto.
      * intros _. apply H2. discriminate.
      * intros r Hr. apply H3. right. exact Hr.
      * intros g r Hg. apply H4. right. exact Hg.
Qed.

(** A fiber in the chain belongs to an active resumable or to none. *)
Lemma chain_owner c fs : forall st f r, chain c fs st -> In f fs -> rfib c r = Some f -> (forall r1 r2 f, rfib c r1 = Some f -> rfib c r2 = Some f -> r1 = r2) ->
  In r (map fr_res st).
Proof.
  induction fs as [|g fs IH]; intros st f r CH HI HR HU; [destruct HI|].
  destruct st as [|fr st]; cbn [chain] in CH; [destruct CH|]. destruct CH as (_ & _ & RR & CH). cbn [map].
  destruct HI as [<-|HI]; [|right; eapply IH; eauto].
  left. destruct (fr_kind fr).
  - eapply HU; [|exact HR]. unfold rfib. rewrite RR. reflexivity.
  - eapply HU; [|exact HR]. unfold rfib. rewrite RR. reflexivity.
  - destruct RR as [_ RN]. destruct (RN r HR).
Qed.

Section Sim.
Variable csz : nat.

Lemma not_in_chain c a fs r f : Rel csz c a fs -> rfib c r = Some f -> a_res a r <> Some AActive -> ~ In f fs.
Proof.
  intros HR HF HA HI. apply HA. eapply rl_act; [exact HR|].
  eapply chain_owner; [eapply rl_chain; exact HR|exact HI|exact HF|eapply rl_uniq; exact HR].
Qed.

(** Calling into a resumable's fiber. *)
Lemma call_rel c a fs r f kd k p fb' c' : Rel csz c a fs ->
  c_res c r = Some (mkRes (Some f) false None) -> a_res a r <> Some AActive -> a_res a r <> None ->
  c_code c' = p -> c_pool c' = c_pool c -> c_nres c' = c_nres c -> c_cur c' = Some f ->
  c_ctx c' = match kd with KDel => c_ctx c | _ => Some f end ->
  c_fib c' f = Some fb' -> f_state fb' = kstate kd -> f_exn fb' = None -> f_caller fb' = Some (c_cur c) ->
  (forall g, g <> f -> Some g <> c_cur c -> c_fib c' g = c_fib c g) ->
  (match c_cur c with
   | None => c_main c' = SCall r f kd (c_ctx c) k
   | Some g => c_main c' = c_main c /\ exists gb, c_fib c g = Some gb /\ c_fib c' g = Some (fib_with_saved gb (SCall r f kd (c_ctx c) k))
   end) ->
  (forall r', r' <> r -> c_res c' r' = c_res c r') ->
  c_res c' r = Some (mkRes (match kd with KDel => None | _ => Some f end) false None) ->
  Rel csz c' (acall a r kd k p) (f :: fs).
Proof.
  intros HR ER HA HN Hcode Hpool Hnres Hcur Hctx Hf Hst Hex Hca Hoth Hmain Hres Hr.
  assert (RF : rfib c r = Some f) by (unfold rfib; rewrite ER; reflexivity).
  assert (NF : ~ In f fs) by (eapply not_in_chain; eauto).
  assert (NR : ~ In r (map fr_res (a_stack a))) by (intros HI; apply HA; eapply rl_act; eauto).
  pose proof (rl_cur _ _ _ _ HR) as HC. pose proof (rl_ctx _ _ _ _ HR) as HX.
  assert (RFB : forall r' g, rfib c' r' = Some g -> rfib c r' = Some g).
  { intros r' g. unfold rfib. destruct (Nat.eq_dec r' r) as [-> |N]; [|rewrite Hres by exact N; auto].
    rewrite Hr, ER. destruct kd; cbn [r_fiber]; auto. discriminate. }
  assert (HCH : chain c' fs (a_stack a)).
  { eapply (chain_frame c); [eapply rl_chain; exact HR|eapply rl_ndf; exact HR| | | |].
    - intros g gb Hg EG. destruct fs as [|h fs']; [destruct Hg|]. cbn [hd_error] in HC. rewrite HC in Hmain.
      destruct Hmain as [_ (hb & EH & EH')]. destruct (Nat.eq_dec g h) as [-> |N].
      + rewrite EH in EG. injection EG as <-. eexists. split; [exact EH'|]. cbn. repeat split; auto.
        intros HT. cbn [tl] in HT. pose proof (rl_ndf _ _ _ _ HR) as ND. inversion ND; subst. contradiction.
      + exists gb. rewrite Hoth; [auto| |rewrite HC; congruence]. intros ->. contradiction.
    - intros Hne. destruct fs as [|h fs']; [congruence|]. cbn [hd_error] in HC. rewrite HC in Hmain. apply Hmain.
    - intros r' Hr'. apply Hres. intros ->. contradiction.
    - intros g r' _. apply RFB. }
  constructor; cbn [acall a_n a_res a_stack a_code].
  - exact Hcode.
  - rewrite Hnres. eapply rl_n; exact HR.
  - exact Hcur.
  - rewrite Hctx. cbn [ctx_of fr_kind]. rewrite <- HX. reflexivity.
  - cbn [chain fr_kind fr_res fr_k]. split; [exists fb'; rewrite <- HC; auto|]. split.
    + rewrite <- HC, <- HX. destruct (c_cur c) as [g|]; cbn [saved_of]; [|rewrite Hmain; reflexivity].
      destruct Hmain as [_ (gb & _ & EG)]. rewrite EG. reflexivity.
    + split; [|exact HCH]. destruct kd; auto. split; [exact Hr|]. intros r' Hr'.
      pose proof (RFB r' f Hr') as Hr2. assert (r' = r) as -> by (eapply rl_uniq; eauto).
      unfold rfib in Hr'. rewrite Hr in Hr'. discriminate Hr'.
  - intros r'. destruct (Nat.eq_dec r' r) as [-> |N].
    + rewrite fup_same. cbn [rrel]. eexists. split; [exact Hr|reflexivity].
    + rewrite fup_other by exact N. pose proof (rl_res _ _ _ _ HR r') as HH.
      assert (FI : forall g gb, rfib c r' = Some g -> a_res a r' <> Some AActive -> c_fib c g = Some gb -> c_fib c' g = Some gb).
      { intros g gb Hg HAA EG. rewrite Hoth; [exact EG| |].
        - intros ->. apply N. eapply rl_uniq; eauto.
        - rewrite HC. intros Hd. eapply (not_in_chain c a fs r' g HR Hg HAA). destruct fs; cbn [hd_error] in Hd; [discriminate|]. injection Hd as ->. left; reflexivity. }
      assert (RF' : rfib c r' = rfib c' r') by (unfold rfib; rewrite (Hres r' N); reflexivity).
      destruct (a_res a r') as [[p'|cl' p'| |v| | ]|]; cbn [rrel] in *; rewrite ?(Hres r' N); auto.
      * destruct HH as (g & gb & E1 & E2 & E3). exists g, gb. split; [exact E1|]. split; [|exact E3]. apply FI; [unfold rfib; rewrite E1; reflexivity|discriminate|exact E2].
      * destruct HH as (g & gb & E1 & E2 & E3). exists g, gb. split; [exact E1|]. split; [|exact E3]. apply FI; [unfold rfib; rewrite E1; reflexivity|discriminate|exact E2].
      * destruct HH as (g & gb & E1 & E2 & E3). exists g, gb. split; [exact E1|]. split; [|exact E3]. apply FI; [unfold rfib; rewrite E1; reflexivity|discriminate|exact E2].
  - intros r' [<-|Hr']; [apply fup_same|]. rewrite fup_other; [eapply rl_act; eauto|]. intros ->. contradiction.
  - cbn [map fr_res]. constructor; [exact NR|eapply rl_ndr; exact HR].
  - constructor; [exact NF|eapply rl_ndf; exact HR].
  - intros r1 r2 g H1 H2. eapply (rl_uniq _ _ _ _ HR); apply RFB; eassumption.
  - intros g Hg. rewrite Hpool in Hg. destruct (rl_cache _ _ _ _ HR g Hg) as ((gb & E1 & E2) & E3 & E4).
    assert (g <> f) by (intros ->; apply (E3 r RF)).
    split; [|split].
    + exists gb. split; [|exact E2]. rewrite Hoth; auto. rewrite HC. intros Hd. apply E4. destruct fs; cbn [hd_error] in Hd; [discriminate|]. injection Hd as ->. left; reflexivity.
    + intros r' Hr'. apply (E3 r'). apply RFB. exact Hr'.
    + intros [<-|Hi]; [congruence|contradiction].
  - rewrite Hpool. eapply rl_ndc; exact HR.
  - intros r' g Hg. apply RFB in Hg. apply (rl_held _ _ _ _ HR) in Hg. destruct (Nat.eq_dec g f) as [-> |N]; [congruence|].
    destruct (c_cur c) as [h|] eqn:EH; [|rewrite Hoth by congruence; exact Hg].
    destruct (Nat.eq_dec g h) as [-> |N2]; [|rewrite Hoth by congruence; exact Hg]. destruct Hmain as [_ (hb & _ & E2)]. congruence.
  - intros g Hg. rewrite Hpool. destruct (Nat.eq_dec g f) as [-> |N].
    + pose proof (rl_res _ _ _ _ HR r) as HH. assert (exists fb, c_fib c f = Some fb) as [fb EF].
      { destruct (a_res a r) as [[p'|cl' p'| |v| | ]|]; cbn [rrel] in HH; try congruence.
        - destruct HH as (g & gb & E1 & E2 & _). exists gb. congruence.
        - destruct HH as (g & gb & E1 & E2 & _). exists gb. congruence.
        - destruct HH as (g & gb & E1 & E2 & _). exists gb. congruence. }
      eapply rl_fb; [exact HR|congruence].
    + eapply rl_fb; [exact HR|]. destruct (c_cur c) as [h|] eqn:EH.
      * destruct (Nat.eq_dec g h) as [-> |N2]; [|rewrite Hoth in Hg by congruence; exact Hg].
        destruct Hmain as [_ (hb & E1 & _)]. congruence.
      * rewrite Hoth in Hg by congruence. exact Hg.
  - intros r' Hr'. rewrite Hnres. destruct (Nat.eq_dec r' r) as [-> |N]; [eapply rl_rb; [exact HR|congruence]|].
    rewrite Hres in Hr' by exact N. eapply rl_rb; eauto.
Qed.

(** Returning from the topmost call. *)
Lemma ret_rel c a f fs fr st s' p c' : Rel csz c a (f :: fs) -> a_stack a = fr :: st ->
  c_code c' = p -> c_nres c' = c_nres c -> c_cur c' = hd_error fs -> c_ctx c' = ctx_of fs st ->
  (forall g, g <> f -> Some g <> hd_error fs -> c_fib c' g = c_fib c g) ->
  (match hd_error fs with
   | None => True
   | Some g => c_main c' = c_main c /\ exists gb, c_fib c g = Some gb /\ c_fib c' g = Some (fib_with_saved gb SExec)
   end) ->
  (forall r', r' <> fr_res fr -> c_res c' r' = c_res c r') ->
  rrel c' (fr_res fr) s' -> s' <> Some AActive ->
  p_next (c_pool c') = p_next (c_pool c) ->
  ((rfib c' (fr_res fr) = Some f /\ rfib c (fr_res fr) = Some f /\ p_cache (c_pool c') = p_cache (c_pool c) /\ c_fib c' f <> None) \/
   (rfib c' (fr_res fr) = None /\
     ((p_cache (c_pool c') = f :: p_cache (c_pool c) /\ exists fb', c_fib c' f = Some fb' /\ idle fb') \/
      (p_cache (c_pool c') = p_cache (c_pool c) /\ c_fib c' f = None)))) ->
  Rel csz c' (mkA (a_n a) (fup (a_res a) (fr_res fr) s') st p) fs.
Proof.
  intros HR ES Hcode Hnres Hcur Hctx Hoth Hmain Hres Hr HNA Hnext HP.
  pose proof (rl_chain _ _ _ _ HR) as CH. rewrite ES in CH. cbn [chain] in CH. destruct CH as ((fb & EF & _) & _ & RR & CH).
  pose proof (rl_ndr _ _ _ _ HR) as NDR. rewrite ES in NDR. cbn [map] in NDR. inversion NDR as [|? ? NR NDR']; subst.
  pose proof (rl_ndf _ _ _ _ HR) as NDF. inversion NDF as [|? ? NF NDF']; subst.
  set (r := fr_res fr) in *.
  assert (RFC : forall g, rfib c r = Some g -> g = f).
  { intros g. unfold rfib. destruct (fr_kind fr); [| |destruct RR as [RR _]]; fold r in RR; rewrite RR; cbn [r_fiber]; congruence. }
  assert (RFB : forall r' g, rfib c' r' = Some g -> rfib c r' = Some g).
  { intros r' g Hg. destruct (Nat.eq_dec r' r) as [-> |N]; [|unfold rfib in *; rewrite Hres in Hg by exact N; exact Hg].
    destruct HP as [(H1 & H2 & _)|(H1 & _)]; congruence. }
  assert (HCH : chain c' fs st).
  { eapply (chain_frame c); [exact CH|exact NDF'| | | |].
    - intros g gb Hg EG. destruct fs as [|h fs']; [destruct Hg|]. cbn [hd_error] in *.
      destruct Hmain as [_ (hb & EH & EH')]. destruct (Nat.eq_dec g h) as [-> |N].
      + rewrite EH in EG. injection EG as <-. eexists. split; [exact EH'|]. cbn. repeat split; auto.
        intros HT. cbn [tl] in HT. inversion NDF'; subst. contradiction.
      + exists gb. rewrite Hoth; [auto| |congruence]. intros ->. contradiction.
    - intros Hne. destruct fs as [|h fs']; [congruence|]. cbn [hd_error] in Hmain. apply Hmain.
    - intros r' Hr'. apply Hres. intros ->. contradiction.
    - intros g r' _. apply RFB. }
  constructor; cbn [a_n a_res a_stack a_code].
  - reflexivity.
  - rewrite Hnres. eapply rl_n; exact HR.
  - exact Hcur.
  - exact Hctx.
  - exact HCH.
  - intros r'. destruct (Nat.eq_dec r' r) as [-> |N]; [rewrite fup_same; exact Hr|].
    rewrite fup_other by exact N. pose proof (rl_res _ _ _ _ HR r') as HH.
    assert (FI : forall g gb, rfib c r' = Some g -> a_res a r' <> Some AActive -> c_fib c g = Some gb -> c_fib c' g = Some gb).
    { intros g gb Hg HAA EG. pose proof (not_in_chain c a (f :: fs) r' g HR Hg HAA) as NI.
      rewrite Hoth; [exact EG| |].
      - intros ->. apply NI. left. reflexivity.
      - intros Hd. apply NI. right. destruct fs; cbn [hd_error] in Hd; [discriminate|]. injection Hd as ->. left; reflexivity. }
    destruct (a_res a r') as [[p'|cl' p'| |v| | ]|]; cbn [rrel] in *; rewrite ?(Hres r' N); auto.
    + destruct HH as (g & gb & E1 & E2 & E3). exists g, gb. split; [exact E1|]. split; [|exact E3]. apply FI; [unfold rfib; rewrite E1; reflexivity|discriminate|exact E2].
    + destruct HH as (g & gb & E1 & E2 & E3). exists g, gb. split; [exact E1|]. split; [|exact E3]. apply FI; [unfold rfib; rewrite E1; reflexivity|discriminate|exact E2].
    + destruct HH as (g & gb & E1 & E2 & E3). exists g, gb. split; [exact E1|]. split; [|exact E3]. apply FI; [unfold rfib; rewrite E1; reflexivity|discriminate|exact E2].
  - intros r' Hr'. rewrite fup_other by (intros ->; contradiction). eapply rl_act; [exact HR|]. rewrite ES. right. exact Hr'.
  - exact NDR'.
  - exact NDF'.
  - intros r1 r2 g H1 H2. eapply (rl_uniq _ _ _ _ HR); apply RFB; eassumption.
  - assert (OLD : forall g, In g (p_cache (c_pool c)) -> (exists gb, c_fib c' g = Some gb /\ idle gb) /\ (forall r', rfib c' r' <> Some g) /\ ~ In g fs).
    { intros g Hg. destruct (rl_cache _ _ _ _ HR g Hg) as ((gb & E1 & E2) & E3 & E4). split; [|split].
      - exists gb. split; [|exact E2]. rewrite Hoth; auto; [intros ->; apply E4; left; reflexivity|].
        intros Hd. apply E4. right. destruct fs; cbn [hd_error] in Hd; [discriminate|]. injection Hd as ->. left; reflexivity.
      - intros r' Hr'. apply (E3 r'). apply RFB. exact Hr'.
      - intros HI. apply E4. right. exact HI. }
    intros g Hg. destruct HP as [(_ & _ & EP & _)|(RN & [(EP & EB)|(EP & EB)])]; rewrite EP in Hg; auto.
    destruct Hg as [<-|Hg]; [|auto]. split; [exact EB|]. split; [|exact NF].
    intros r' Hr'. pose proof (RFB r' f Hr') as Hr2. destruct (Nat.eq_dec r' r) as [-> |N]; [congruence|].
    destruct (fr_kind fr); [| |destruct RR as [RR RN2]].
    + apply N. eapply (rl_uniq _ _ _ _ HR); [exact Hr2|]. unfold rfib. fold r in RR. rewrite RR. reflexivity.
    + apply N. eapply (rl_uniq _ _ _ _ HR); [exact Hr2|]. unfold rfib. fold r in RR. rewrite RR. reflexivity.
    + apply (RN2 r' Hr2).
  - pose proof (rl_ndc _ _ _ _ HR) as ND. destruct HP as [(_ & _ & EP & _)|(RN & [(EP & EB)|(EP & EB)])]; rewrite EP; auto.
    constructor; [|exact ND]. intros HI. destruct (rl_cache _ _ _ _ HR f HI) as (_ & _ & NI). apply NI. left. reflexivity.
  - intros r' g Hg0. pose proof (RFB _ _ Hg0) as Hg. pose proof (rl_held _ _ _ _ HR _ _ Hg) as Hh. destruct (Nat.eq_dec g f) as [-> |N].
    + destruct HP as [(_ & _ & _ & X)|(RN & _)]; [exact X|]. exfalso. destruct (Nat.eq_dec r' r) as [-> |N]; [congruence|].
      destruct (fr_kind fr); [| |destruct RR as [RR RN2]].
      * apply N. eapply (rl_uniq _ _ _ _ HR); [exact Hg|]. unfold rfib. fold r in RR. rewrite RR. reflexivity.
      * apply N. eapply (rl_uniq _ _ _ _ HR); [exact Hg|]. unfold rfib. fold r in RR. rewrite RR. reflexivity.
      * apply (RN2 r' Hg).
    + destruct (hd_error fs) as [h|] eqn:EH; [|rewrite Hoth by congruence; exact Hh].
      destruct (Nat.eq_dec g h) as [-> |N2]; [|rewrite Hoth by congruence; exact Hh]. destruct Hmain as [_ (hb & _ & E2)]. congruence.
  - intros g Hg. rewrite Hnext. destruct (Nat.eq_dec g f) as [-> |N].
    + eapply rl_fb; [exact HR|congruence].
    + eapply rl_fb; [exact HR|]. destruct (hd_error fs) as [h|] eqn:EH.
      * destruct (Nat.eq_dec g h) as [-> |N2]; [|rewrite Hoth in Hg by congruence; exact Hg].
        destruct Hmain as [_ (hb & E1 & _)]. congruence.
      * rewrite Hoth in Hg by congruence. exact Hg.
  - intros r' Hr'. rewrite Hnres. destruct (Nat.eq_dec r' r) as [-> |N].
    + eapply rl_rb; [exact HR|]. destruct (fr_kind fr); [| |destruct RR as [RR _]]; fold r in RR; congruence.
    + rewrite Hres in Hr' by exact N. eapply rl_rb; eauto.
Qed.

Lemma after_call_eval c a f fs fr st cB fb' : Rel csz c a (f :: fs) -> a_stack a = fr :: st ->
  c_cur cB = hd_error fs -> (forall g, g <> f -> c_fib cB g = c_fib c g) -> c_fib cB f = Some fb' ->
  (f_state fb' = Yielded \/ f_state fb' = Idle) -> c_main cB = c_main c ->
  exists c0,
    after_call csz cB =
      match fr_kind fr with
      | KRun => let* (o, c1) := yielded csz (set_ctx c0 (ctx_of fs st)) (fr_res fr) in Ok (set_code c1 (fr_k fr o))
      | KAbort => let* x := get_res c0 (fr_res fr) in
          Ok (set_code (set_res (set_ctx c0 (ctx_of fs st)) (fr_res fr) (Some (mkRes (r_fiber x) true None))) (fr_k fr (Returned true None)))
      | KDel => Ok (set_code (set_res (fiber_put csz c0 f) (fr_res fr) None) (fr_k fr (Returned true None)))
      end /\
    c_pool c0 = c_pool cB /\ c_nres c0 = c_nres cB /\ c_res c0 = c_res cB /\ c_ctx c0 = c_ctx cB /\ c_cur c0 = hd_error fs /\
    c_fib c0 f = Some fb' /\
    (forall g, g <> f -> Some g <> hd_error fs -> c_fib c0 g = c_fib c g) /\
    (match hd_error fs with
     | None => True
     | Some g => c_main c0 = c_main c /\ exists gb, c_fib c g = Some gb /\ c_fib c0 g = Some (fib_with_saved gb SExec)
     end).
Proof.
  intros HR ES HC HO HF HS HM.
  pose proof (rl_chain _ _ _ _ HR) as CH. rewrite ES in CH. cbn [chain] in CH. destruct CH as ((fb & EF & _) & SV & RR & CH).
  pose proof (rl_ndf _ _ _ _ HR) as NDF. inversion NDF as [|? ? NF NDF']; subst.
  unfold after_call. rewrite HC. destruct (hd_error fs) as [g|] eqn:EH.
  - assert (NG : g <> f). { intros ->. apply NF. destruct fs; cbn [hd_error] in EH; [discriminate|]. injection EH as ->. left; reflexivity. }
    cbn [saved_of] in SV. destruct (c_fib c g) as [gb|] eqn:EG; [|discriminate SV]. cbn [option_map] in SV. injection SV as SV.
    exists (set_fib cB g (fib_with_saved gb SExec)). split.
    + unfold get_fib at 1. rewrite (HO g NG), EG. cbn [bind]. rewrite SV. unfold get_fib at 1. rewrite HF. cbn [bind].
      unfold save_cur. rewrite HC. unfold get_fib at 1 2. rewrite (HO g NG), EG. cbn [bind]. destruct HS as [-> | ->]; destruct (fr_kind fr); reflexivity.
    + cbn [set_fib c_pool c_nres c_res c_ctx c_cur c_fib c_main]. repeat split; auto.
      * rewrite fup_other by congruence. exact HF.
      * intros h Hh1 Hh2. rewrite fup_other by congruence. apply HO. exact Hh1.
      * exists gb. split; [reflexivity|]. apply fup_same.
  - cbn [saved_of] in SV. injection SV as SV. eexists. split.
    + cbn [bind]. rewrite HM, SV. unfold get_fib at 1. rewrite HF. cbn [bind]. unfold save_cur. rewrite HC.
      cbn [bind]. destruct HS as [-> | ->]; destruct (fr_kind fr); reflexivity.
    + cbn [c_pool c_nres c_res c_ctx c_cur c_fib c_main]. repeat split; auto.
Qed.

(** Switching back to the caller. *)
Lemma fiber_yield_eval c f sv fb g : c_cur c = Some f -> c_fib c f = Some fb -> f_caller fb = Some g ->
  fiber_yield csz c f sv = after_call csz (set_cur (set_fib c f (fib_with_saved fb sv)) g).
Proof.
  intros HC HF HG. unfold fiber_yield. rewrite HC, Nat.eqb_refl. unfold save_cur. rewrite HC. unfold get_fib at 1. rewrite HF. cbn [bind].
  unfold get_fib. cbn [set_fib c_fib]. rewrite fup_same. cbn [bind fib_with_saved f_caller]. rewrite HG. reflexivity.
Qed.

Lemma put_facts c f fb : c_fib c f = Some fb -> idle fb ->
  let c' := fiber_put csz c f in
  p_next (c_pool c') = p_next (c_pool c) /\
  ((p_cache (c_pool c') = f :: p_cache (c_pool c) /\ (exists fb', c_fib c' f = Some fb' /\ idle fb')) \/
   (p_cache (c_pool c') = p_cache (c_pool c) /\ c_fib c' f = None)) /\
  (forall g, g <> f -> c_fib c' g = c_fib c g).
Proof.
  intros HF HI. cbv zeta. unfold fiber_put, pool_destroy. cbn [set_pool c_pool c_fib].
  destruct (length (p_cache (c_pool c)) <? csz); cbn [p_next p_cache fiber_dtor].
  - repeat split; auto. left. split; [reflexivity|]. exists fb. auto.
  - split; [reflexivity|]. split; [right; split; [reflexivity|apply fup_same]|]. intros g Hg. apply fup_other. exact Hg.
Qed.

(** The end of a body, normally, by an exception, or after an abort. *)
Lemma end_sim c a fs f fr st o : Rel csz c a (f :: fs) -> a_stack a = fr :: st ->
  exists c', trampoline_end csz c f o = Ok c' /\
    match fr_kind fr with
    | KRun => Rel csz c' (mkA (a_n a) (fup (a_res a) (fr_res fr) (Some (match o with inl v => ADone v | inr _ => AFailed end))) st
                (fr_k fr (match o with inl v => Returned true (Some v) | inr e => Threw e end))) fs
    | KAbort => Rel csz c' (mkA (a_n a) (fup (a_res a) (fr_res fr) (Some AAborted)) st (fr_k fr (Returned true None))) fs
    | KDel => Rel csz c' (mkA (a_n a) (fup (a_res a) (fr_res fr) None) st (fr_k fr (Returned true None))) fs
    end.
Proof.
  intros HR ES. pose proof (rl_chain _ _ _ _ HR) as CH. rewrite ES in CH. cbn [chain] in CH.
  destruct CH as ((fb & EF & EST & EX & EC) & SV & RR & CH).
  unfold trampoline_end. unfold get_fib. rewrite EF. cbn [bind].
  set (fb' := match o with inl v => _ | inr e => _ end).
  assert (B1 : f_state fb' = Idle) by (unfold fb'; destruct o, (f_state fb); reflexivity).
  assert (B2 : f_caller fb' = Some (hd_error fs)) by (unfold fb'; destruct o, (f_state fb); exact EC).
  pose proof (rl_cur _ _ _ _ HR) as HC. cbn [hd_error] in HC.
  rewrite (fiber_yield_eval (set_fib c f fb') f SIdle fb' (hd_error fs)); [|exact HC|cbn [set_fib c_fib]; apply fup_same|exact B2].
  set (cB := set_cur _ _). set (fi := fib_with_saved fb' SIdle).
  assert (FI : idle fi) by (split; [right; exact B1|right; reflexivity]).
  destruct (after_call_eval c a f fs fr st cB fi HR ES) as (c0 & EA & P0 & N0 & R0 & X0 & U0 & F0 & O0 & M0).
  { reflexivity. }
  { intros g Hg. unfold cB. cbn [set_cur set_fib c_fib]. rewrite !fup_other by exact Hg. reflexivity. }
  { unfold cB. cbn [set_cur set_fib c_fib]. apply fup_same. }
  { right. exact B1. }
  { reflexivity. }
  rewrite EA. clear EA.
  assert (P0' : c_pool c0 = c_pool c) by (rewrite P0; reflexivity).
  assert (N0' : c_nres c0 = c_nres c) by (rewrite N0; reflexivity).
  assert (R0' : c_res c0 = c_res c) by (rewrite R0; reflexivity).
  assert (X0' : c_ctx c0 = c_ctx c) by (rewrite X0; reflexivity). clear P0 N0 R0 X0.
  destruct (fr_kind fr) eqn:EK.
  - (* run/resume *)
    unfold yielded. unfold get_res. cbn [set_ctx c_res]. rewrite R0', RR. cbn [bind r_fiber]. unfold get_fib. cbn [set_ctx c_fib]. rewrite F0. cbn [bind].
    assert (SF : f_state fb = Running) by exact EST.
    set (oc := match o with inl v => Returned true (Some v) | inr e => Threw e end).
    set (rs := match o with inl v => Some v | inr _ => None end).
    assert (EO : match f_exn fi with
      | Some e => Ok (Threw e, set_res (fiber_put csz (set_ctx c0 (ctx_of fs st)) f) (fr_res fr) (Some (mkRes None true None)))
      | None => if fiber_is_done (f_state fi)
          then Ok (Returned true (f_res fi), set_res (fiber_put csz (set_ctx c0 (ctx_of fs st)) f) (fr_res fr) (Some (mkRes None true (f_res fi))))
          else Ok (Returned false None, set_ctx c0 (ctx_of fs st)) end
      = Ok (oc, set_res (fiber_put csz (set_ctx c0 (ctx_of fs st)) f) (fr_res fr) (Some (mkRes None true rs)))).
    { unfold fi, fb', oc, rs. rewrite SF. destruct o; cbn; rewrite ?EX; reflexivity. }
    cbn [r_done r_result]. rewrite EO. cbn [bind]. eexists. split; [reflexivity|].
    destruct (put_facts (set_ctx c0 (ctx_of fs st)) f fi F0 FI) as (Q1 & Q2 & Q3). cbv zeta in *.
    set (cP := fiber_put csz (set_ctx c0 (ctx_of fs st)) f) in *.
    assert (RP : c_res cP = c_res c) by exact R0'.
    eapply ret_rel; [exact HR|exact ES|..].
    + reflexivity.
    + exact N0'.
    + exact U0.
    + reflexivity.
    + intros g Hg1 Hg2. cbn [set_code set_res c_fib]. rewrite Q3 by exact Hg1. cbn [set_ctx c_fib]. apply O0; assumption.
    + destruct (hd_error fs) as [g|] eqn:EH; [|exact I]. destruct M0 as [M1 (gb & M2 & M3)]. split; [exact M1|]. exists gb. split; [exact M2|].
      cbn [set_code set_res c_fib]. rewrite Q3; [exact M3|]. intros ->. pose proof (rl_ndf _ _ _ _ HR) as ND. inversion ND; subst.
      apply H1. destruct fs; cbn [hd_error] in EH; [discriminate|]. injection EH as ->. left; reflexivity.
    + intros r' Hr'. cbn [set_code set_res c_res]. rewrite fup_other by exact Hr'. rewrite RP. reflexivity.
    + destruct o; cbn [rrel set_code set_res c_res]; rewrite fup_same; reflexivity.
    + destruct o; discriminate.
    + cbn [set_code set_res c_pool]. rewrite Q1. cbn [set_ctx c_pool]. rewrite P0'. reflexivity.
    + right. split; [unfold rfib; cbn [set_code set_res c_res]; rewrite fup_same; reflexivity|].
      cbn [set_code set_res c_pool c_fib]. cbn [set_ctx c_pool] in Q2. rewrite P0' in Q2. exact Q2.
  - (* abort *)
    unfold get_res. rewrite R0', RR. cbn [bind r_fiber]. eexists. split; [reflexivity|].
    eapply ret_rel; [exact HR|exact ES|..].
    + reflexivity.
    + exact N0'.
    + exact U0.
    + reflexivity.
    + intros g Hg1 Hg2. cbn [set_code set_res set_ctx c_fib]. apply O0; assumption.
    + destruct (hd_error fs) as [g|]; [|exact I]. exact M0.
    + intros r' Hr'. cbn [set_code set_res set_ctx c_res]. rewrite fup_other by exact Hr'. rewrite R0'. reflexivity.
    + cbn [rrel set_code set_res set_ctx c_res]. exists f, fi. rewrite fup_same. repeat split; [exact F0|exact B1].
    + discriminate.
    + cbn [set_code set_res set_ctx c_pool]. rewrite P0'. reflexivity.
    + left. unfold rfib. cbn [set_code set_res set_ctx c_res c_pool]. rewrite fup_same, RR, P0'. cbn [r_fiber set_code set_res set_ctx c_fib]. repeat split. rewrite F0. discriminate.
  - (* destruction *)
    destruct RR as [RR RN]. eexists. split; [reflexivity|].
    destruct (put_facts c0 f fi F0 FI) as (Q1 & Q2 & Q3). cbv zeta in *.
    eapply ret_rel; [exact HR|exact ES|..].
    + reflexivity.
    + exact N0'.
    + exact U0.
    + cbn [set_code set_res fiber_put set_pool c_ctx]. rewrite X0', (rl_ctx _ _ _ _ HR), ES. cbn [ctx_of]. rewrite EK. reflexivity.
    + intros g Hg1 Hg2. cbn [set_code set_res c_fib]. rewrite Q3 by exact Hg1. apply O0; assumption.
    + destruct (hd_error fs) as [g|] eqn:EH; [|exact I]. destruct M0 as [M1 (gb & M2 & M3)]. split; [exact M1|]. exists gb. split; [exact M2|].
      cbn [set_code set_res c_fib]. rewrite Q3; [exact M3|]. intros ->. pose proof (rl_ndf _ _ _ _ HR) as ND. inversion ND; subst.
      apply H1. destruct fs; cbn [hd_error] in EH; [discriminate|]. injection EH as ->. left; reflexivity.
    + intros r' Hr'. cbn [set_code set_res fiber_put set_pool c_res]. rewrite fup_other by exact Hr'. rewrite R0'. reflexivity.
    + cbn [rrel set_code set_res c_res]. apply fup_same.
    + discriminate.
    + cbn [set_code set_res c_pool]. rewrite Q1, P0'. reflexivity.
    + right. split; [unfold rfib; cbn [set_code set_res c_res]; rewrite fup_same; reflexivity|].
      cbn [set_code set_res c_pool c_fib]. rewrite P0' in Q2. exact Q2.
Qed.

Record switched (c c' : cstate) (f : nat) (fb : fiber) (sv : saved) : Prop := {
  sw_pool : c_pool c' = c_pool c; sw_n : c_nres c' = c_nres c; sw_res : c_res c' = c_res c; sw_cur : c_cur c' = Some f;
  sw_f : c_fib c' f = Some (fib_called fb (c_cur c));
  sw_oth : forall g, g <> f -> Some g <> c_cur c -> c_fib c' g = c_fib c g;
  sw_main : match c_cur c with
            | None => c_main c' = sv
            | Some g => c_main c' = c_main c /\ exists gb, c_fib c g = Some gb /\ c_fib c' g = Some (fib_with_saved gb sv)
            end }.

Lemma activate_eval c f sv fb : c_cur c <> Some f -> (forall g, c_cur c = Some g -> c_fib c g <> None) -> c_fib c f = Some fb ->
  exists c2, switched c c2 f fb sv /\ c_ctx c2 = c_ctx c /\
    activate c f sv = match f_saved fb with
      | SFresh | SIdle => match f_state fb, f_fun fb with Running, Some p => Ok (set_code c2 p) | _, _ => UB end
      | SYield cl p r => match f_state fb with Aborting => Ok (set_code c2 cl) | _ => Ok (set_code (set_ctx c2 (Some r)) p) end
      | _ => UB
      end.
Proof.
  intros HN HG HF. unfold activate. destruct (c_cur c) as [g|] eqn:EC.
  - assert (NG : g <> f) by congruence. apply Nat.eqb_neq in NG as NG'. rewrite NG'. unfold save_cur. rewrite EC.
    specialize (HG g eq_refl). destruct (c_fib c g) as [gb|] eqn:EG; [|congruence]. unfold get_fib at 1. rewrite EG. cbn [bind].
    unfold get_fib. cbn [set_fib c_fib]. rewrite fup_other by congruence. rewrite HF. cbn [bind]. eexists. split; [|split; [|reflexivity]].
    + constructor; cbn [set_cur set_fib c_pool c_nres c_res c_cur c_fib c_main]; auto.
      * rewrite fup_same, EC. reflexivity.
      * intros h H1 H2. rewrite fup_other by exact H1. rewrite fup_other by congruence. reflexivity.
      * rewrite EC. split; [reflexivity|]. exists gb. split; [exact EG|]. rewrite fup_other by exact NG. apply fup_same.
    + reflexivity.
  - unfold save_cur. rewrite EC. cbn [bind]. unfold get_fib. cbn [c_fib]. rewrite HF. cbn [bind]. eexists. split; [|split; [|reflexivity]].
    + constructor; cbn [set_cur set_fib c_pool c_nres c_res c_cur c_fib c_main]; auto.
      * rewrite fup_same, EC. reflexivity.
      * intros h H1 H2. rewrite fup_other by exact H1. reflexivity.
      * rewrite EC. reflexivity.
    + reflexivity.
Qed.

Lemma chain_cur c fs st g : chain c fs st -> hd_error fs = Some g -> c_fib c g <> None.
Proof.
  destruct fs as [|f fs], st as [|fr st]; cbn [chain hd_error]; intros CH [= <-]; [destruct CH|]. destruct CH as ((fb & E & _) & _). congruence.
Qed.

(** Activating a resumable's fiber; [c1] is [c] after the caller's preparations. *)
Lemma call_sim c a fs r f fb kd k c1 fb1 p : Rel csz c a fs ->
  c_res c r = Some (mkRes (Some f) false None) -> a_res a r <> Some AActive -> a_res a r <> None -> c_fib c f = Some fb ->
  c_pool c1 = c_pool c -> c_nres c1 = c_nres c -> c_cur c1 = c_cur c -> c_main c1 = c_main c ->
  c_ctx c1 = match kd with KDel => c_ctx c | _ => Some f end ->
  (forall r', r' <> r -> c_res c1 r' = c_res c r') ->
  c_res c1 r = Some (mkRes (match kd with KDel => None | _ => Some f end) false None) ->
  (forall g, g <> f -> c_fib c1 g = c_fib c g) -> c_fib c1 f = Some fb1 ->
  f_state fb1 = kstate kd -> f_exn fb1 = None ->
  match f_saved fb1 with
  | SFresh | SIdle => f_fun fb1 = Some p /\ kd = KRun
  | SYield cl q r0 => (if match kd with KRun => true | _ => false end then q else cl) = p /\ r0 = f
  | _ => False
  end ->
  exists c', activate c1 f (SCall r f kd (c_ctx c) k) = Ok c' /\ Rel csz c' (acall a r kd k p) (f :: fs).
Proof.
  intros HR ER HA HN EF Hpool Hn Hcur Hmain Hctx Hres Hr Hoth Hf Hst Hex Hsv.
  assert (RF : rfib c r = Some f) by (unfold rfib; rewrite ER; reflexivity).
  assert (NF : ~ In f fs) by (eapply not_in_chain; eauto).
  pose proof (rl_cur _ _ _ _ HR) as HC.
  assert (CN : c_cur c <> Some f). { rewrite HC. intros Hd. apply NF. destruct fs; cbn [hd_error] in Hd; [discriminate|]. injection Hd as ->. left; reflexivity. }
  assert (CE : forall g, c_cur c1 = Some g -> c_fib c1 g <> None).
  { intros g Hg. rewrite Hcur in Hg. rewrite Hoth by congruence. eapply chain_cur; [eapply rl_chain; exact HR|]. congruence. }
  destruct (activate_eval c1 f (SCall r f kd (c_ctx c) k) fb1 ltac:(congruence) CE Hf) as (c2 & SW & X2 & EA).
  destruct SW as [W1 W2 W3 W4 W5 W6 W7].
  assert (G : forall c', c_code c' = p -> c_pool c' = c_pool c2 -> c_nres c' = c_nres c2 -> c_res c' = c_res c2 -> c_cur c' = c_cur c2 ->
    c_fib c' = c_fib c2 -> c_main c' = c_main c2 -> c_ctx c' = match kd with KDel => c_ctx c | _ => Some f end ->
    Rel csz c' (acall a r kd k p) (f :: fs)).
  { intros c' G1 G2 G3 G4 G5 G6 G7 G8. apply (call_rel c a fs r f kd k p (fib_called fb1 (c_cur c1))); try assumption; try congruence.
    - cbn [fib_called f_caller]. congruence.
    - intros g Hg1 Hg2. rewrite G6, W6 by congruence. apply Hoth. exact Hg1.
    - rewrite <- Hcur. rewrite <- Hmain. destruct (c_cur c1) as [g|] eqn:EG; [|congruence].
      destruct W7 as [W7 (gb & E1 & E2)]. split; [congruence|]. exists gb. split; [|congruence]. rewrite <- (Hoth g) by congruence. exact E1.
    - intros r' Hr'. rewrite G4, W3. apply Hres. exact Hr'. }
  rewrite EA. destruct (f_saved fb1) as [| |cl q r0|r0 f0 kd0 old0 k0|]; [| | |destruct Hsv|destruct Hsv].
  - destruct Hsv as [E ->]. rewrite Hst, E. eexists. split; [reflexivity|]. apply G; try reflexivity. cbn [set_code c_ctx]. congruence.
  - destruct Hsv as [E ->]. rewrite Hst, E. eexists. split; [reflexivity|]. apply G; try reflexivity. cbn [set_code c_ctx]. congruence.
  - destruct Hsv as [E ->]. rewrite Hst. destruct kd; cbn [kstate].
    + subst q. eexists. split; [reflexivity|]. apply G; reflexivity.
    + subst cl. eexists. split; [reflexivity|]. apply G; try reflexivity. cbn [set_code c_ctx]. congruence.
    + subst cl. eexists. split; [reflexivity|]. apply G; try reflexivity. cbn [set_code c_ctx]. congruence.
Qed.

(** Changing only the code keeps the relation. *)
Lemma rel_code c a fs p : Rel csz c a fs -> Rel csz (set_code c p) (agoto a p) fs.
Proof. intros [A B C D E F G H I J K L O M N]. constructor; cbn [agoto a_n a_res a_stack a_code]; try assumption; try reflexivity.
  eapply chain_frame; [exact E|exact I| | | |]; auto. intros f fb _ Hf. exists fb. cbn. auto. Qed.

Lemma kill_rel c a fs r f fb c' k s : Rel csz c a fs -> a_res a r = Some s -> s <> AActive ->
  (rfib c r = Some f /\ c_fib c f = Some fb /\ idle fb /\ c' = set_code (set_res (fiber_put csz c f) r None) k) \/
  (rfib c r = None /\ c' = set_code (set_res c r None) k) ->
  Rel csz c' (mkA (a_n a) (fup (a_res a) r None) (a_stack a) k) fs.
Proof.
  intros HR HS HN HC.
  assert (NA : a_res a r <> Some AActive) by congruence.
  assert (NR : ~ In r (map fr_res (a_stack a))) by (intros HI; apply NA; eapply rl_act; eauto).
  assert (FACTS : c_nres c' = c_nres c /\ c_cur c' = c_cur c /\ c_ctx c' = c_ctx c /\ c_main c' = c_main c /\ c_code c' = k /\
    (forall r', r' <> r -> c_res c' r' = c_res c r') /\ c_res c' r = None /\
    p_next (c_pool c') = p_next (c_pool c) /\
    (forall g, (rfib c r <> Some g) -> c_fib c' g = c_fib c g) /\
    (forall g, c_fib c' g <> None -> c_fib c g <> None) /\
    ((exists f fb', rfib c r = Some f /\ p_cache (c_pool c') = f :: p_cache (c_pool c) /\ c_fib c' f = Some fb' /\ idle fb') \/ p_cache (c_pool c') = p_cache (c_pool c))).
  { destruct HC as [(RF & EF & FI & ->)|(RF & ->)].
    - destruct (put_facts c f fb EF FI) as (Q1 & Q2 & Q3). cbv zeta in *.
      cbn [set_code set_res c_nres c_cur c_ctx c_main c_code c_res c_pool c_fib].
      repeat (split; [try reflexivity; auto|]).
      + intros r' Hr'. rewrite fup_other by exact Hr'. reflexivity.
      + apply fup_same.
      + intros g Hg. apply Q3. congruence.
      + intros g Hg. destruct (Nat.eq_dec g f) as [-> |N]; [congruence|]. rewrite <- (Q3 g N). exact Hg.
      + destruct Q2 as [(Q2 & fb' & Q4 & Q5)|(Q2 & Q4)]; [left; exists f, fb'; auto|right; exact Q2].
    - cbn [set_code set_res c_nres c_cur c_ctx c_main c_code c_res c_pool c_fib]. repeat (split; [try reflexivity; auto|]).
      + intros r' Hr'. apply fup_other. exact Hr'.
      + apply fup_same.
      + right; reflexivity. }
  clear HC. destruct FACTS as (F1 & F2 & F3 & F4 & F5 & F6 & F7 & F8 & F9 & F10 & F11).
  assert (RFB : forall r' g, rfib c' r' = Some g -> rfib c r' = Some g /\ r' <> r).
  { intros r' g. unfold rfib. destruct (Nat.eq_dec r' r) as [-> |N]; [rewrite F7; discriminate|rewrite F6 by exact N; auto]. }
  destruct HR as [A B C D E F G H I J K L O M N].
  assert (HR : Rel csz c a fs) by (constructor; assumption).
  constructor; cbn [a_n a_res a_stack a_code]; try congruence.
  - eapply (chain_frame c); [exact E|exact I| | | |].
    + intros g gb Hg EG. exists gb. rewrite F9; [auto|]. intros HX. eapply not_in_chain; eauto.
    + intros _. exact F4.
    + intros r' Hr'. apply F6. intros ->. contradiction.
    + intros g r' _ Hx. apply RFB. exact Hx.
  - intros r'. destruct (Nat.eq_dec r' r) as [-> |NN]; [rewrite fup_same; exact F7|]. rewrite fup_other by exact NN.
    pose proof (F r') as HH.
    assert (FI : forall g gb, rfib c r' = Some g -> c_fib c g = Some gb -> c_fib c' g = Some gb).
    { intros g gb Hg EG. rewrite F9; [exact EG|]. intros HX. apply NN. eapply J; eauto. }
    destruct (a_res a r') as [[p'|cl' p'| |v| | ]|]; cbn [rrel] in *; rewrite ?(F6 r' NN); auto.
    + destruct HH as (g & gb & E1 & E2 & E3). exists g, gb. split; [exact E1|]. split; [|exact E3]. apply FI; [unfold rfib; rewrite E1; reflexivity|exact E2].
    + destruct HH as (g & gb & E1 & E2 & E3). exists g, gb. split; [exact E1|]. split; [|exact E3]. apply FI; [unfold rfib; rewrite E1; reflexivity|exact E2].
    + destruct HH as (g & gb & E1 & E2 & E3). exists g, gb. split; [exact E1|]. split; [|exact E3]. apply FI; [unfold rfib; rewrite E1; reflexivity|exact E2].
  - intros r' Hr'. rewrite fup_other by (intros ->; contradiction). apply G. exact Hr'.
  - intros r1 r2 g H1 H2. eapply J; [apply RFB; eassumption|apply RFB; eassumption].
  - assert (OLD : forall g, In g (p_cache (c_pool c)) -> (exists gb, c_fib c' g = Some gb /\ idle gb) /\ (forall r', rfib c' r' <> Some g) /\ ~ In g fs).
    { intros g Hg. destruct (K g Hg) as ((gb & E1 & E2) & E3 & E4). split; [exists gb; split; [rewrite F9; auto|exact E2]|]. split; [|exact E4].
      intros r' Hr'. apply (E3 r'), RFB, Hr'. }
    intros g Hg. destruct F11 as [(f1 & fb1 & R1 & R2 & R3 & R4)|EP]; [rewrite R2 in Hg|rewrite EP in Hg; auto].
    destruct Hg as [<-|Hg]; [|auto]. split; [exists fb1; auto|]. split; [|eapply not_in_chain; eauto].
    intros r' Hr'. destruct (RFB r' f1 Hr') as [X1 X2]. apply X2. eapply J; eauto.
  - destruct F11 as [(f1 & fb1 & R1 & R2 & R3 & R4)|EP]; [rewrite R2|rewrite EP; exact L]. constructor; [|exact L].
    intros HI. destruct (K f1 HI) as (_ & X & _). apply (X r R1).
  - intros r' g Hg. destruct (RFB r' g Hg) as [X1 X2]. rewrite F9; [eapply O; exact X1|]. intros X3. apply X2. eapply J; eauto.
  - intros g Hg. rewrite F8. apply M. apply F10. exact Hg.
  - intros r' Hr'. rewrite F1. apply N. destruct (Nat.eq_dec r' r) as [-> |NN]; [congruence|]. rewrite <- (F6 r' NN). exact Hr'.
Qed.

Lemma new_rel c a fs body k : Rel csz c a fs -> c_code c = PNew body k ->
  exists c', cstep csz c = Ok c' /\ Rel csz c' (mkA (S (a_n a)) (fup (a_res a) (a_n a) (Some (AFresh body))) (a_stack a) (k (a_n a))) fs.
Proof.
  intros HR EC. pose proof HR as HR0. destruct HR as [A B C D E F G H I J K L O M N].
  set (r := c_nres c). assert (RN : c_res c r = None). { destruct (c_res c r) eqn:X; [|reflexivity]. assert (r < c_nres c) by (apply N; congruence). lia. }
  assert (AN : a_res a r = None).
  { pose proof (F r) as HH. destruct (a_res a r) as [[p'|cl' p'| |v| | ]|]; cbn [rrel] in HH; auto; try congruence.
    - destruct HH as (g & gb & E1 & _). congruence.
    - destruct HH as (g & gb & E1 & _). congruence.
    - destruct HH as (x & E1 & _). congruence.
    - destruct HH as (g & gb & E1 & _). congruence. }
  assert (NRS : ~ In r (map fr_res (a_stack a))) by (intros HI; apply G in HI; congruence).
  assert (FSE : forall st fs, chain c fs st -> forall g, In g fs -> c_fib c g <> None).
  { clear. induction st as [|fr st IH]; intros [|f fs]; cbn [chain]; intros CH g Hg; try (destruct Hg; fail); try (destruct CH; fail).
    destruct CH as ((fb & E1 & _) & _ & _ & CH). destruct Hg as [<-|Hg]; [congruence|eapply IH; eauto]. }
  unfold cstep. rewrite EC.
  assert (X : exists f p fb, pool_create (c_pool c) = (f, p) /\
     (match p_cache (c_pool c) with [] => Ok (mkFib Init None None None None SFresh) | _ :: _ => get_fib c f end) = Ok fb /\ idle fb /\
     (forall r', rfib c r' <> Some f) /\ ~ In f fs /\ p_next (c_pool c) <= p_next p /\ f < p_next p /\
     (forall g, In g (p_cache p) -> In g (p_cache (c_pool c)) /\ g <> f) /\ NoDup (p_cache p)).
  { unfold pool_create. destruct (p_cache (c_pool c)) as [|f0 cc] eqn:EP.
    - unfold fiber_ctor. eexists _, _, _. split; [reflexivity|]. split; [reflexivity|].
      assert (FN : c_fib c (p_next (c_pool c)) = None). { destruct (c_fib c (p_next (c_pool c))) eqn:X; [|reflexivity]. assert (p_next (c_pool c) < p_next (c_pool c)) by (apply M; congruence). lia. }
      split; [split; left; reflexivity|]. split; [intros r' Hr'; apply O in Hr'; congruence|]. split; [intros HI; apply (FSE _ _ E) in HI; congruence|].
      cbn [p_next p_cache]. rewrite EP. repeat split; try lia; try (intros g []); try constructor; destruct H0.
    - destruct (K f0 (or_introl eq_refl)) as ((fb & E1 & E2) & E3 & E4). eexists _, _, fb. split; [reflexivity|].
      split; [unfold get_fib; rewrite E1; reflexivity|]. split; [exact E2|]. split; [exact E3|]. split; [exact E4|]. cbn [p_next p_cache].
      inversion L; subst. repeat split; try lia; auto.
      + apply M. congruence.
      + right. assumption.
      + intros ->. contradiction. }
  destruct X as (f & p & fb & X1 & X2 & X3 & X4 & X5 & X6 & X7 & X8 & X9). rewrite X1, X2. cbn [bind]. fold r. eexists. split; [reflexivity|].
  set (fb' := mkFib (f_state fb) (Some body) None None (f_caller fb) (f_saved fb)).
  set (c' := mkC _ _ _ _ _ _ _ _).
  assert (R1 : c_res c' r = Some (mkRes (Some f) false None)) by (cbn [c' c_res]; apply fup_same).
  assert (R2 : forall r', r' <> r -> c_res c' r' = c_res c r') by (intros r' Hr'; cbn [c' c_res]; apply fup_other; exact Hr').
  assert (R3 : c_fib c' f = Some fb') by (cbn [c' c_fib]; apply fup_same).
  assert (R4 : forall g, g <> f -> c_fib c' g = c_fib c g) by (intros g Hg; cbn [c' c_fib]; apply fup_other; exact Hg).
  assert (RFB : forall r' g, rfib c' r' = Some g -> (r' <> r /\ rfib c r' = Some g /\ g <> f) \/ (r' = r /\ g = f)).
  { intros r' g Hg. destruct (Nat.eq_dec r' r) as [-> |NN].
    - right. unfold rfib in Hg. rewrite R1 in Hg. cbn in Hg. split; congruence.
    - left. unfold rfib in Hg. rewrite R2 in Hg by exact NN. repeat split; auto. intros ->. apply (X4 r'). exact Hg. }
  assert (EN : a_n a = r) by (symmetry; exact B).
  constructor; cbn [a_n a_res a_stack a_code]; rewrite ?EN; try assumption; try reflexivity.
  - eapply (chain_frame c); [exact E|exact I| | | |]; auto.
    + intros g gb Hg EG. exists gb. rewrite R4; [auto|]. intros ->. contradiction.
    + intros r' Hr'. apply R2. intros ->. contradiction.
    + intros g r' Hg Hr'. destruct (RFB r' g Hr') as [(_ & Y & _)|(_ & ->)]; [exact Y|contradiction].
  - intros r'. destruct (Nat.eq_dec r' r) as [-> |NN].
    + rewrite fup_same. cbn [rrel]. exists f, fb'. repeat split; auto; apply X3.
    + rewrite fup_other by exact NN. pose proof (F r') as HH.
      assert (FI : forall g gb, rfib c r' = Some g -> c_fib c g = Some gb -> c_fib c' g = Some gb).
      { intros g gb Hg EG. rewrite R4; [exact EG|]. intros ->. apply (X4 r' Hg). }
      destruct (a_res a r') as [[p'|cl' p'| |v| | ]|]; cbn [rrel] in *; rewrite ?(R2 r' NN); auto.
      * destruct HH as (g & gb & E1 & E2 & E3). exists g, gb. split; [exact E1|]. split; [|exact E3]. apply FI; [unfold rfib; rewrite E1; reflexivity|exact E2].
      * destruct HH as (g & gb & E1 & E2 & E3). exists g, gb. split; [exact E1|]. split; [|exact E3]. apply FI; [unfold rfib; rewrite E1; reflexivity|exact E2].
      * destruct HH as (g & gb & E1 & E2 & E3). exists g, gb. split; [exact E1|]. split; [|exact E3]. apply FI; [unfold rfib; rewrite E1; reflexivity|exact E2].
  - intros r' Hr'. rewrite fup_other by (intros ->; contradiction). apply G. exact Hr'.
  - intros r1 r2 g H1 H2. destruct (RFB _ _ H1) as [(Y1 & Y2 & Y3)|(Y1 & Y2)], (RFB _ _ H2) as [(Z1 & Z2 & Z3)|(Z1 & Z2)]; try congruence. eapply J; eauto.
  - intros g Hg. destruct (X8 g Hg) as [Hg1 Hg2]. destruct (K g Hg1) as ((gb & E1 & E2) & E3 & E4). split; [exists gb; rewrite R4; auto|]. split; [|exact E4].
    intros r' Hr'. destruct (RFB _ _ Hr') as [(Y1 & Y2 & Y3)|(Y1 & Y2)]; [apply (E3 r' Y2)|congruence].
  - intros r' g Hg. destruct (RFB _ _ Hg) as [(Y1 & Y2 & Y3)|(Y1 & ->)]; [rewrite R4 by exact Y3; eapply O; exact Y2|congruence].
  - intros g Hg. cbn [c' c_pool]. destruct (Nat.eq_dec g f) as [-> |NN]; [exact X7|]. rewrite R4 in Hg by exact NN. apply M in Hg. lia.
  - intros r' Hr'. cbn [c' c_nres]. destruct (Nat.eq_dec r' r) as [-> |NN]; [lia|]. rewrite R2 in Hr' by exact NN. apply N in Hr'. fold r in Hr'. lia.
Qed.

Lemma yield_sim c a fs f fr st cl k : Rel csz c a (f :: fs) -> a_stack a = fr :: st -> fr_kind fr = KRun -> c_code c = PYield cl k ->
  exists c', cstep csz c = Ok c' /\
    Rel csz c' (mkA (a_n a) (fup (a_res a) (fr_res fr) (Some (ASusp cl k))) st (fr_k fr (Returned false None))) fs.
Proof.
  intros HR ES EK EC0. pose proof (rl_chain _ _ _ _ HR) as CH. rewrite ES in CH. cbn [chain] in CH.
  destruct CH as ((fb & EF & EST & EX & EC) & SV & RR & CH). rewrite EK in *. cbn [kstate] in EST.
  unfold cstep. rewrite EC0. rewrite (rl_ctx _ _ _ _ HR), ES. cbn [ctx_of]. rewrite EK. unfold get_fib. rewrite EF. cbn [bind]. rewrite EST.
  set (fb' := fib_with_state fb Yielded).
  pose proof (rl_cur _ _ _ _ HR) as HC. cbn [hd_error] in HC.
  rewrite (fiber_yield_eval (set_fib c f fb') f (SYield cl k f) fb' (hd_error fs)); [|exact HC|cbn [set_fib c_fib]; apply fup_same|exact EC].
  set (cB := set_cur _ _). set (fi := fib_with_saved fb' (SYield cl k f)).
  destruct (after_call_eval c a f fs fr st cB fi HR ES) as (c0 & EA & P0 & N0 & R0 & X0 & U0 & F0 & O0 & M0).
  { reflexivity. }
  { intros g Hg. unfold cB. cbn [set_cur set_fib c_fib]. rewrite !fup_other by exact Hg. reflexivity. }
  { unfold cB. cbn [set_cur set_fib c_fib]. apply fup_same. }
  { left. reflexivity. }
  { reflexivity. }
  rewrite EA, EK. clear EA.
  assert (P0' : c_pool c0 = c_pool c) by (rewrite P0; reflexivity).
  assert (N0' : c_nres c0 = c_nres c) by (rewrite N0; reflexivity).
  assert (R0' : c_res c0 = c_res c) by (rewrite R0; reflexivity). clear P0 N0 R0 X0.
  unfold yielded. unfold get_res. cbn [set_ctx c_res]. rewrite R0', RR. cbn [bind r_fiber]. unfold get_fib. cbn [set_ctx c_fib]. rewrite F0. cbn [bind].
  cbn [fi fib_with_saved fb' fib_with_state f_exn]. rewrite EX. cbn [f_state fiber_is_done bind r_done r_result]. eexists. split; [reflexivity|].
  eapply ret_rel; [exact HR|exact ES|..].
  + reflexivity.
  + exact N0'.
  + exact U0.
  + reflexivity.
  + intros g Hg1 Hg2. cbn [set_code set_ctx c_fib]. apply O0; assumption.
  + destruct (hd_error fs) as [g|]; [|exact I]. exact M0.
  + intros r' Hr'. cbn [set_code set_ctx c_res]. rewrite R0'. reflexivity.
  + cbn [rrel set_code set_ctx c_res]. exists f, fi. rewrite R0', RR. repeat split; [exact F0|exact EX].
  + discriminate.
  + cbn [set_code set_ctx c_pool]. rewrite P0'. reflexivity.
  + left. unfold rfib. cbn [set_code set_ctx c_res c_pool c_fib]. rewrite R0', RR, P0'. cbn [r_fiber]. repeat split. rewrite F0. discriminate.
Qed.

Lemma fs_stack c a fs : Rel csz c a fs -> (a_stack a = [] /\ fs = []) \/ exists f fs' fr st, fs = f :: fs' /\ a_stack a = fr :: st.
Proof.
  intros HR. pose proof (rl_chain _ _ _ _ HR) as CH. destruct fs, (a_stack a); cbn [chain] in CH; try destruct CH; eauto 8.
Qed.

Definition moved (fs : list nat) (st : list frame) (fs' : list nat) (st' : list frame) : Prop :=
  (fs' = fs /\ st' = st) \/ (exists f fr, fs' = f :: fs /\ st' = fr :: st) \/ (exists f fr, fs = f :: fs' /\ st = fr :: st').
Ltac mv := unfold moved; cbn [acall agoto a_stack]; repeat match goal with H : a_stack _ = _ |- _ => rewrite H end; eauto 10.

Lemma step_sim c a fs a' : Rel csz c a fs -> astep a = Ok a' ->
  exists c' fs', cstep csz c = Ok c' /\ Rel csz c' a' fs' /\ moved fs (a_stack a) fs' (a_stack a').
Proof.
  intros HR. pose proof (rl_code _ _ _ _ HR) as EC. pose proof (rl_cur _ _ _ _ HR) as EU. unfold astep.
  destruct (a_code a) as [v|e|cl k|body k|r k|r k|r k|r k|r k] eqn:EP.
  - (* return *)
    destruct (fs_stack c a fs HR) as [(ES & ->)|(f & fs' & fr & st & -> & ES)]; rewrite ES.
    + intros [= <-]. exists c, []. split; [|split; [exact HR|mv]]. unfold cstep. rewrite EC, EU. reflexivity.
    + destruct (end_sim c a fs' f fr st (inl v) HR ES) as (c' & E1 & E2). intros HS. exists c', fs'. split.
      * unfold cstep. rewrite EC, EU. exact E1.
      * destruct (fr_kind fr); injection HS as <-; (split; [exact E2|mv]).
  - (* throw *)
    destruct (fs_stack c a fs HR) as [(ES & ->)|(f & fs' & fr & st & -> & ES)]; rewrite ES.
    + intros [= <-]. exists c, []. split; [|split; [exact HR|mv]]. unfold cstep. rewrite EC, EU. reflexivity.
    + destruct (end_sim c a fs' f fr st (inr e) HR ES) as (c' & E1 & E2). intros HS. exists c', fs'. split.
      * unfold cstep. rewrite EC, EU. exact E1.
      * destruct (fr_kind fr); injection HS as <-; (split; [exact E2|mv]).
  - (* yield *)
    destruct (fs_stack c a fs HR) as [(ES & ->)|(f & fs' & fr & st & -> & ES)]; rewrite ES.
    + intros [= <-]. eexists _, []. split; [|split; [apply rel_code; exact HR|mv]]. unfold cstep. rewrite EC, (rl_ctx _ _ _ _ HR). reflexivity.
    + destruct (fr_kind fr) eqn:EK; try discriminate. intros [= <-].
      destruct (yield_sim c a fs' f fr st cl k HR ES EK EC) as (c' & E1 & E2). exists c', fs'. split; [exact E1|]. split; [exact E2|mv].
  - (* new *)
    intros [= <-]. destruct (new_rel c a fs body k HR EC) as (c' & E1 & E2). exists c', fs. split; [exact E1|]. split; [exact E2|mv].
  - (* run *)
    pose proof (rl_res _ _ _ _ HR r) as HH. destruct (a_res a r) as [[p|cl p| |v| | ]|] eqn:EA; try discriminate; cbn [rrel] in HH; intros [= <-].
    + destruct HH as (f & fb & E1 & E2 & E3 & E4 & E5).
      assert (X : exists c', cstep csz c = Ok c' /\ Rel csz c' (acall a r KRun k p) (f :: fs)); [|destruct X as (c' & X1 & X2); exists c', (f :: fs); split; [exact X1|]; split; [exact X2|mv]].
      unfold cstep. rewrite EC. unfold get_res. rewrite E1. cbn [bind r_fiber]. unfold fiber_run, get_fib. cbn [set_ctx c_fib]. rewrite E2. cbn [bind].
      assert (X : match f_state fb with Aborting => set_ctx c (Some f) | _ => set_fib (set_ctx c (Some f)) f (fib_with_state fb Running) end =
        set_fib (set_ctx c (Some f)) f (fib_with_state fb Running)) by (destruct E3 as [[-> | ->] _]; reflexivity).
      rewrite X. eapply (call_sim c a fs r f fb KRun k _ (fib_with_state fb Running) p HR E1); try reflexivity; try congruence; auto.
      * intros g Hg. cbn [set_fib c_fib]. apply fup_other. exact Hg.
      * cbn [set_fib c_fib]. apply fup_same.
      * cbn [fib_with_state f_saved f_fun]. destruct E3 as [_ [-> | ->]]; auto.
    + exists (set_code c (k (Threw ELogic))), fs. split; [|split; [apply rel_code; exact HR|mv]]. unfold cstep. rewrite EC. unfold get_res. rewrite HH. reflexivity.
    + exists (set_code c (k (Threw ELogic))), fs. split; [|split; [apply rel_code; exact HR|mv]]. unfold cstep. rewrite EC. unfold get_res. rewrite HH. reflexivity.
  - (* resume *)
    pose proof (rl_res _ _ _ _ HR r) as HH. destruct (a_res a r) as [[p|cl p| |v| | ]|] eqn:EA; try discriminate; cbn [rrel] in HH; intros [= <-].
    + destruct HH as (f & fb & E1 & E2 & E3 & E4 & E5).
      assert (X : exists c', cstep csz c = Ok c' /\ Rel csz c' (acall a r KRun k p) (f :: fs)); [|destruct X as (c' & X1 & X2); exists c', (f :: fs); split; [exact X1|]; split; [exact X2|mv]].
      unfold cstep. rewrite EC. unfold get_res. rewrite E1. cbn [bind r_fiber]. unfold fiber_resume, fiber_run, get_fib. cbn [set_ctx c_fib]. rewrite E2. cbn [bind].
      rewrite E3. eapply (call_sim c a fs r f fb KRun k _ (fib_with_state fb Running) p HR E1); try reflexivity; try congruence; auto.
      * intros g Hg. cbn [set_fib c_fib]. apply fup_other. exact Hg.
      * cbn [set_fib c_fib]. apply fup_same.
      * cbn [fib_with_state f_saved f_fun]. rewrite E4. auto.
    + exists (set_code c (k (Threw ELogic))), fs. split; [|split; [apply rel_code; exact HR|mv]]. unfold cstep. rewrite EC. unfold get_res. rewrite HH. reflexivity.
    + exists (set_code c (k (Threw ELogic))), fs. split; [|split; [apply rel_code; exact HR|mv]]. unfold cstep. rewrite EC. unfold get_res. rewrite HH. reflexivity.
  - (* abort *)
    pose proof (rl_res _ _ _ _ HR r) as HH. destruct (a_res a r) as [[p|cl p| |v| | ]|] eqn:EA; try discriminate; cbn [rrel] in HH; intros [= <-].
    + destruct HH as (f & fb & E1 & E2 & E3 & E4 & E5).
      assert (X : exists c', cstep csz c = Ok c' /\ Rel csz c' (acall a r KAbort (fun _ => k) cl) (f :: fs)); [|destruct X as (c' & X1 & X2); exists c', (f :: fs); split; [exact X1|]; split; [exact X2|mv]].
      unfold cstep. rewrite EC. unfold get_res. rewrite E1. cbn [bind r_fiber]. unfold fiber_abort, fiber_run, get_fib. cbn [set_ctx c_fib]. rewrite E2. cbn [bind].
      rewrite E3. cbn [set_fib c_fib]. rewrite fup_same. cbn [bind fib_with_state f_state].
      eapply (call_sim c a fs r f fb KAbort (fun _ => k) _ (fib_with_state fb Aborting) cl HR E1); try reflexivity; try congruence; auto.
      * intros g Hg. cbn [set_fib c_fib]. apply fup_other. exact Hg.
      * cbn [set_fib c_fib]. apply fup_same.
      * cbn [fib_with_state f_saved f_fun]. rewrite E4. auto.
    + exists (set_code c k), fs. split; [|split; [apply rel_code; exact HR|mv]]. unfold cstep. rewrite EC. unfold get_res. rewrite HH. reflexivity.
    + exists (set_code c k), fs. split; [|split; [apply rel_code; exact HR|mv]]. unfold cstep. rewrite EC. unfold get_res. rewrite HH. reflexivity.
  - (* destructor *)
    pose proof (rl_res _ _ _ _ HR r) as HH. destruct (a_res a r) as [[p|cl p| |v| | ]|] eqn:EA; try discriminate; cbn [rrel] in HH; intros [= <-].
    + destruct HH as (f & fb & E1 & E2 & E3 & E4 & E5).
      assert (RF : rfib c r = Some f) by (unfold rfib; rewrite E1; reflexivity).
      exists (set_code (set_res (fiber_put csz c f) r None) k), fs. split.
      * unfold cstep. rewrite EC. unfold get_res. rewrite E1. cbn [bind r_fiber]. unfold get_fib. rewrite E2. cbn [bind]. destruct E3 as [[-> | ->] _]; reflexivity.
      * split; [|mv]. eapply kill_rel; [exact HR|exact EA|discriminate|left; eauto].
    + destruct HH as (f & fb & E1 & E2 & E3 & E4 & E5).
      assert (X : exists c', cstep csz c = Ok c' /\ Rel csz c' (acall a r KDel (fun _ => k) cl) (f :: fs)); [|destruct X as (c' & X1 & X2); exists c', (f :: fs); split; [exact X1|]; split; [exact X2|mv]].
      unfold cstep. rewrite EC. unfold get_res. rewrite E1. cbn [bind r_fiber]. unfold fiber_abort, fiber_run, get_fib. cbn [set_res c_fib]. rewrite E2. cbn [bind].
      rewrite E3. cbn [set_fib c_fib]. rewrite fup_same. cbn [bind fib_with_state f_state r_done r_result].
      eapply (call_sim c a fs r f fb KDel (fun _ => k) _ (fib_with_state fb Aborting) cl HR E1); try reflexivity; try congruence; auto.
      * intros r' Hr'. cbn [set_fib set_res c_res]. apply fup_other. exact Hr'.
      * cbn [set_fib set_res c_res]. apply fup_same.
      * intros g Hg. cbn [set_fib c_fib]. apply fup_other. exact Hg.
      * cbn [set_fib c_fib]. apply fup_same.
      * cbn [fib_with_state f_saved f_fun]. rewrite E4. auto.
    + exists (set_code (set_res c r None) k), fs. split.
      * unfold cstep. rewrite EC. unfold get_res. rewrite HH. reflexivity.
      * split; [|mv]. eapply (kill_rel c a fs r 0 (mkFib Init None None None None SFresh)); [exact HR|exact EA|discriminate|right; unfold rfib; rewrite HH; auto].
    + exists (set_code (set_res c r None) k), fs. split.
      * unfold cstep. rewrite EC. unfold get_res. rewrite HH. reflexivity.
      * split; [|mv]. eapply (kill_rel c a fs r 0 (mkFib Init None None None None SFresh)); [exact HR|exact EA|discriminate|right; unfold rfib; rewrite HH; auto].
    + destruct HH as (f & fb & E1 & E2 & E3 & E4).
      assert (RF : rfib c r = Some f) by (unfold rfib; rewrite E1; reflexivity).
      exists (set_code (set_res (fiber_put csz c f) r None) k), fs. split.
      * unfold cstep. rewrite EC. unfold get_res. rewrite E1. cbn [bind r_fiber]. unfold get_fib. rewrite E2. cbn [bind]. rewrite E3. reflexivity.
      * split; [|mv]. eapply kill_rel; [exact HR|exact EA|discriminate|left]. repeat split; eauto.
  - (* observation *)
    pose proof (rl_res _ _ _ _ HR r) as HH. intros HS.
    assert (X : exists d v, a' = agoto a (k d v) /\ exists x, c_res c r = Some x /\ r_done x = d /\ (if r_done x then r_result x else None) = v).
    { destruct (a_res a r) as [[p|cl p| |v| | ]|]; try discriminate; cbn [rrel] in HH; injection HS as <-.
      - destruct HH as (f & fb & E1 & _). eexists _, _. split; [reflexivity|]. eexists. split; [exact E1|]. auto.
      - destruct HH as (f & fb & E1 & _). eexists _, _. split; [reflexivity|]. eexists. split; [exact E1|]. auto.
      - destruct HH as (x & E1 & E2). eexists _, _. split; [reflexivity|]. exists x. rewrite E2. auto.
      - eexists _, _. split; [reflexivity|]. eexists. split; [exact HH|]. auto.
      - eexists _, _. split; [reflexivity|]. eexists. split; [exact HH|]. auto.
      - destruct HH as (f & fb & E1 & _). eexists _, _. split; [reflexivity|]. eexists. split; [exact E1|]. auto. }
    destruct X as (d & v & -> & x & E1 & <- & <-). exists (set_code c (k (r_done x) (if r_done x then r_result x else None))), fs.
    split; [|split; [apply rel_code; exact HR|mv]]. unfold cstep. rewrite EC. unfold get_res. rewrite E1. reflexivity.
Qed.

Lemma init_rel p : Rel csz (cinit p) (ainit p) [].
Proof. constructor; cbn; intros; try apply NoDup_nil; try congruence; try contradiction; auto. Qed.

Lemma steps_sim n : forall c a fs a', Rel csz c a fs -> asteps n a = Ok a' -> exists c' fs', csteps csz n c = Ok c' /\ Rel csz c' a' fs'.
Proof.
  induction n as [|n IH]; intros c a fs a' HR; cbn [asteps csteps].
  - intros [= <-]. eauto.
  - destruct (astep a) as [a1| |] eqn:E1; cbn [bind]; try discriminate. destruct (step_sim c a fs a1 HR E1) as (c1 & fs1 & E2 & R1 & _).
    rewrite E2. cbn [bind]. apply IH with (fs := fs1). exact R1.
Qed.

Lemma csteps_S n c : csteps csz (S n) c = (let* c' := cstep csz c in csteps csz n c').
Proof. reflexivity. Qed.

Lemma chain_len c fs : forall st, chain c fs st -> length fs = length st.
Proof.
  induction fs as [|f fs IH]; intros [|fr st]; cbn [chain]; intros CH; try destruct CH as (_ & _ & _ & CH); try (destruct CH; fail); auto.
  cbn [length]. f_equal. apply IH. exact CH.
Qed.

(** While the calls in progress at some point are not completed, nothing below changes. *)
Lemma steps_above n : forall c a fs a' base bst, Rel csz c a fs -> asteps n a = Ok a' -> length base = length bst ->
  (exists pre prs, fs = pre ++ base /\ a_stack a = prs ++ bst) ->
  (forall i ai, i < n -> asteps i a = Ok ai -> length bst < length (a_stack ai)) ->
  exists c' fs', csteps csz n c = Ok c' /\ Rel csz c' a' fs' /\ exists pre prs, fs' = pre ++ base /\ a_stack a' = prs ++ bst.
Proof.
  induction n as [|n IH]; intros c a fs a' base bst HR; cbn [asteps].
  - intros [= <-] _ HP _. exists c, fs. auto.
  - destruct (astep a) as [a1| |] eqn:E1; cbn [bind]; try discriminate. intros HS HL (pre & prs & EP & ES) HD.
    destruct (step_sim c a fs a1 HR E1) as (c1 & fs1 & E2 & R1 & MV).
    assert (L : length fs = length (a_stack a)).
    { eapply chain_len, rl_chain, HR. }
    pose proof (HD 0 a ltac:(lia) eq_refl) as D0. rewrite ES, app_length in D0.
    edestruct (IH c1 a1 fs1 a' base bst R1 HS HL) as (c' & fs' & X1 & X2 & X3).
    + destruct MV as [(-> & EQ)|[(f & fr & -> & EQ)|(f & fr & EQ1 & EQ2)]].
      * exists pre, prs. rewrite EQ. auto.
      * exists (f :: pre), (fr :: prs). rewrite EQ, EP, ES. auto.
      * assert (exists x y, pre = x :: y) as (x & pre' & ->).
        { destruct pre as [|x y]; [|eauto]. exfalso. rewrite EP, ES, !app_length in L. cbn [length] in L. lia. }
        assert (exists x y, prs = x :: y) as (y & prs' & ->) by (destruct prs; [cbn in D0; lia|eauto]).
        exists pre', prs'. rewrite EP in EQ1. rewrite ES in EQ2. cbn [app] in EQ1, EQ2. split; congruence.
    + intros i ai Hi EI. apply (HD (S i) ai ltac:(lia)). cbn [asteps]. rewrite E1. exact EI.
    + exists c', fs'. split; [|auto]. rewrite csteps_S, E2. exact X1.
Qed.
End Sim.
