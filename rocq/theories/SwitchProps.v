(** C76: switches by look-ahead. *)
From Verif Require Import Base GrammarModel GrammarSpec GrammarProofs GrammarProofs2 GrammarProofs3 GrammarProps LahModel LahSpec LahSpec2 LahProofs LahProofs2 LahProofs3 LahProofs4 LahProps.
From Verif Require Import SwitchModel SwitchSpec SwitchProofs SwitchProofs2 SwitchProofs3.
Local Open Scope nat_scope.

Lemma at_ok {E} I (x : st E) : at_switch I x -> state_ok I x.
Proof. intros [A B C D F G]. split; [|exact C]. split; [split; try assumption; lia|]. rewrite C. cbn. exact F. Qed.
Lemma rest_ahead {E} I (x : st E) : rest_at I None (s_pos x) = ahead I x. Proof. reflexivity. Qed.
Lemma matches_here {E} (P : prog E) I (x : st E) l v : p_kind P l = KBytes v -> matches P I l (s_pos x) -> prefix v (ahead I x).
Proof. intros K M. apply (matches_prefix P I l (s_pos x) v M K). Qed.
Lemma here_matches {E} (P : prog E) I (x : st E) l v : p_kind P l = KBytes v -> prefix v (ahead I x) -> matches P I l (s_pos x).
Proof. intros K (u & H). exists v. split; [exact K|]. rewrite rest_ahead, H, firstn_app, Nat.sub_diag, firstn_all, firstn_O, app_nil_r. reflexivity. Qed.
Lemma prefix_both v v' d : prefix v d -> prefix v' d -> prefix v v' \/ prefix v' v.
Proof.
  intros (u & ->) (u' & H). apply (prefix_free_data v v' (v ++ u)); [rewrite firstn_app, Nat.sub_diag, firstn_all, firstn_O, app_nil_r; reflexivity|].
  rewrite H, firstn_app, Nat.sub_diag, firstn_all, firstn_O, app_nil_r. reflexivity.
Qed.

Section T.
Context {E : Type} (P : prog E) (I : input) (g : grammar) (lha : nat -> sym) (w : switch E).

(** The literal in the input selects the case that begins with it. *)
Theorem C76_selects x c t v : compiled P g -> has_switch P g lha w -> separate P g lha w -> i_closed I = true -> at_switch I x -> w_cond w (s_env x) = true ->
  In c (w_cases w) -> begins g lha w c t -> word P g t v -> prefix v (ahead I x) ->
  goes_to P I (top lha (w_cases w)) x c.
Proof.
  intros CG HS SE CL AT CX IC BG (l & TL & KV) PV. pose proof (switch_chain P g CG lha w HS) as CH. pose proof (top_reached P g lha w HS) as RE. pose proof (at_ok I x AT) as O.
  assert (ANY : forall s t', In s (map c_sym (w_cases w)) -> next_token g (top lha (w_cases w)) s t' -> any_case g lha w t').
  { intros s t' IS NT. apply in_map_iff in IS. destruct IS as (c' & <- & IC'). exists c'. split; [exact IC'|exact NT]. }
  assert (UQ : forall s t' l', In s (map c_sym (w_cases w)) -> next_token g (top lha (w_cases w)) s t' -> tok_of g t' = Some l' -> constant P l' /\ (t' <> t -> ~ matches P I l' (s_pos x))).
  { intros s t' l' IS NT TL'. pose proof (ANY s t' IS NT) as AC. destruct (se_lit _ _ _ _ SE t' l' AC TL') as (v' & KV' & NV). split; [exists v'; auto|]. intros NE M.
    pose proof (matches_here P I x l' v' KV' M) as PV'. pose proof (ex_intro _ c (conj IC BG) : any_case g lha w t) as AT0.
    destruct (prefix_both v v' _ PV PV') as [Q | Q]; [refine (se_free _ _ _ _ SE t t' v v' AT0 AC (fun K => NE (eq_sym K)) _ _ Q)|refine (se_free _ _ _ _ SE t' t v' v AC AT0 NE _ _ Q)]; eexists; eauto. }
  inversion CH as [s0 E0 E1 E2|cs ds s q c0 H1 F PC CN FL E0 E1 E2].
  - destruct (w_cases w) as [|c1 [|c2 r]]; [discriminate| |discriminate]. destruct IC as [<- | []]. exists 0, x. repeat split.
  - rewrite <- E0 in UQ. assert (IS : In (c_sym c) (cs ++ [c0])) by (rewrite E0; apply in_map; exact IC).
    destruct (look_some P I g CG (w_cond w) CL cs ds _ s c0 (c_sym c) t l x H1 F RE IS BG TL) as (y & LK & OY & (KP & KL & KE) & LY); try assumption.
    + destruct (se_lit _ _ _ _ SE t l (ex_intro _ c (conj IC BG)) TL) as (v' & KV' & NV). exists v'. auto.
    + eapply here_matches; eassumption.
    + apply AT.
    + apply AT.
    + rewrite <- E0, <- E1 in CH. destruct (chain_token P I g CG (w_cond w) _ _ _ CH (c_sym c) t l y RE IS BG TL) as (k & NZ & R).
      * intros c' t' IC' NT' TL'. destruct (Nat.eq_dec t' t) as [Q | NQ]; [exact Q|exfalso]. destruct (UQ c' t' l IC' NT' TL') as (_ & NM). apply (NM NQ). eapply here_matches; eassumption.
      * exact LY.
      * rewrite <- KE. exact CX.
      * destruct k as [|k]; [exfalso; apply NZ; [destruct ds; discriminate|reflexivity]|]. exists (S k), y. split; [congruence|]. split; [congruence|]. split; [congruence|]. intros m. rewrite <- R. cbn [Nat.add].
        rewrite (parse_link P I g CG (w_cond w) _ s c0 x y (k + m) F PC CN CX LK).
        rewrite (parse_link P I g CG (w_cond w) _ s c0 y y (k + m) F PC CN); [reflexivity|rewrite <- KE; exact CX|unfold look; rewrite LY; reflexivity].
Qed.

Lemma none_at x : separate P g lha w -> nothing_matches P I g lha w x -> none_here P I g (map c_sym (w_cases w)) (top lha (w_cases w)) x.
Proof.
  intros SE NM c t l IC NT TL. apply in_map_iff in IC. destruct IC as (c' & <- & IC). assert (AC : any_case g lha w t) by (exists c'; split; [exact IC|exact NT]).
  destruct (se_lit _ _ _ _ SE t l AC TL) as (v & KV & NV). split; [exists v; auto|]. intros M. apply (NM t v AC); [exists l; auto|]. eapply matches_here; eassumption.
Qed.
Lemma mode_cases : mode w = match w_cases w with c :: d :: _ => if c_default d then DSecond else if c_default c then DFirst else DNone | _ => DNone end.
Proof. unfold mode. destruct (w_cases w) as [|c [|d r]]; reflexivity. Qed.
Lemma split_last (l : list scase) c i : nth_error l i = Some c -> S i = length l -> exists l0, l = l0 ++ [c].
Proof.
  intros N L. exists (firstn i l). rewrite <- (firstn_skipn i l) at 1. f_equal. assert (length (skipn i l) = 1) by (rewrite skipn_length; lia).
  destruct (skipn i l) as [|c' [|]] eqn:SK; try discriminate. f_equal. assert (N2 : nth_error (firstn i l ++ skipn i l) i = Some c) by (rewrite firstn_skipn; exact N).
  rewrite nth_error_app2, firstn_length in N2 by (rewrite firstn_length; lia). replace (i - Nat.min i (length l)) with 0 in N2 by lia. rewrite SK in N2. injection N2 as ->. reflexivity.
Qed.
Lemma repeat_snoc {A} (d : A) n : repeat d (S n) = repeat d n ++ [d].
Proof. induction n as [|n IH]; [reflexivity|]. cbn [repeat app] in *. rewrite <- IH. reflexivity. Qed.
Lemma last_chain l0 c : l0 <> [] -> w_cases w = l0 ++ [c] -> compiled P g -> has_switch P g lha w ->
  chain P g (w_cond w) (map c_sym l0 ++ [c_sym c]) (repeat (mode w) (length l0 - 1) ++ [mode w]) (top lha (w_cases w)).
Proof.
  intros NE EW CG HS. pose proof (switch_chain P g CG lha w HS) as CH. rewrite EW in CH at 1 2. rewrite map_app, app_length in CH. cbn [map length] in CH.
  replace (length l0 + 1 - 1) with (S (length l0 - 1)) in CH by (destruct l0; [congruence|cbn; lia]). rewrite repeat_snoc in CH. exact CH.
Qed.

(** If none of the literals is there, the default is taken, provided that it is the first or the last case. *)
Theorem C76_default x c i : compiled P g -> has_switch P g lha w -> separate P g lha w -> i_closed I = true -> at_switch I x -> w_cond w (s_env x) = true ->
  nth_error (w_cases w) i = Some c -> c_default c = true -> (i = 0 \/ S i = length (w_cases w)) ->
  ahead I x <> [] -> nothing_matches P I g lha w x ->
  goes_to P I (top lha (w_cases w)) x c.
Proof.
  intros CG HS SE CL AT CX NC DC POS NE NM. pose proof (switch_chain P g CG lha w HS) as CH. pose proof (top_reached P g lha w HS) as RE. pose proof (at_ok I x AT) as O.
  pose proof (none_at x SE NM) as NH. pose proof mode_cases as MC. destruct POS as [-> | POS].
  - destruct (w_cases w) as [|c0 cs] eqn:EW; [discriminate|]. injection NC as ->.
    assert (MD : forall d, In d (repeat (mode w) (length (c :: cs) - 1)) -> d = DFirst).
    { intros d ID. destruct cs as [|c2 r]; [destruct ID|]. apply repeat_spec in ID. rewrite ID, MC.
      assert (c_default c2 = false) as -> by (apply (others P g lha w HS [] c (c2 :: r) EW DC); left; reflexivity). rewrite DC. reflexivity. }
    apply (chain_none_first P I g CG (w_cond w) CL _ _ _ CH x MD RE NH O (as_lah _ _ AT) NE CX).
  - destruct (split_last _ _ _ NC POS) as (l0 & EW). destruct l0 as [|c1 [|c2 l0]].
    + rewrite EW. exists 0, x. repeat split.
    + rewrite EW in *. cbn [app] in *. assert (MD : mode w = DSecond) by (rewrite MC, DC; reflexivity).
      destruct (chain_none_last P I g CG (w_cond w) CL [c_sym c1] [] (top lha [c1; c]) (c_sym c) (mode w) CH x RE NH O (as_lah _ _ AT) NE CX) as (G & _). apply G. exact MD.
    + exfalso. pose proof (early P g CG lha w HS c1 c2 (l0 ++ [c]) EW c ltac:(apply in_app_iff; right; left; reflexivity)). congruence.
Qed.
(** If there is no default, then that is an error, as long as each case can begin with a literal; ... *)
Theorem C76_no_match x : compiled P g -> has_switch P g lha w -> separate P g lha w -> i_closed I = true -> at_switch I x -> w_cond w (s_env x) = true ->
  2 <= length (w_cases w) -> (forall c, In c (w_cases w) -> c_default c = false /\ exists t v, begins g lha w c t /\ word P g t v) ->
  ahead I x <> [] -> nothing_matches P I g lha w x ->
  fails P I (top lha (w_cases w)) x.
Proof.
  intros CG HS SE CL AT CX LEN LIT NE NM. pose proof (top_reached P g lha w HS) as RE. pose proof (at_ok I x AT) as O.
  pose proof (none_at x SE NM) as NH. pose proof mode_cases as MC. destruct (exists_last (hs_some _ _ _ _ HS)) as (l0 & c & EW).
  assert (N0 : l0 <> []) by (intros ->; rewrite EW in LEN; cbn in LEN; lia).
  pose proof (last_chain l0 c N0 EW CG HS) as CH. rewrite EW, map_app in NH. cbn [map] in NH. rewrite <- EW in NH.
  assert (MD : mode w = DNone).
  { rewrite MC. destruct (w_cases w) as [|c1 [|c2 r]]; try reflexivity. destruct (LIT c1 (or_introl eq_refl)) as (-> & _). destruct (LIT c2 (or_intror (or_introl eq_refl))) as (-> & _). reflexivity. }
  destruct (chain_none_last P I g CG (w_cond w) CL _ _ _ _ _ CH x RE NH O (as_lah _ _ AT) NE CX) as (_ & G). destruct (G MD) as (G1 & _).
  - destruct l0 as [|c1 l0]; [congruence|]. destruct (LIT c1 ltac:(rewrite EW; left; reflexivity)) as (_ & t & v & BG & l & TL & _). exists (c_sym c1), t, l. split; [left; reflexivity|auto].
  - exists 1. intros m. apply G1. destruct (LIT c ltac:(rewrite EW; apply in_app_iff; right; left; reflexivity)) as (_ & t & v & BG & l & TL & _). exists t, l. auto.
Qed.
(** ... a case that begins with something else than a literal acts as a default if it is the last one. *)
Theorem C76_last x l0 c : compiled P g -> has_switch P g lha w -> separate P g lha w -> i_closed I = true -> at_switch I x -> w_cond w (s_env x) = true ->
  w_cases w = l0 ++ [c] -> (forall c, In c (w_cases w) -> c_default c = false) -> (exists c' t v, In c' l0 /\ begins g lha w c' t /\ word P g t v) ->
  (forall t, begins g lha w c t -> tok_of g t = None) ->
  ahead I x <> [] -> nothing_matches P I g lha w x ->
  goes_to P I (top lha (w_cases w)) x c.
Proof.
  intros CG HS SE CL AT CX EW ND (c1 & t1 & v1 & I1 & B1 & l1 & T1 & _) NL NE NM. pose proof (top_reached P g lha w HS) as RE. pose proof (at_ok I x AT) as O.
  pose proof (none_at x SE NM) as NH. pose proof mode_cases as MC. assert (N0 : l0 <> []) by (intros ->; destruct I1).
  pose proof (last_chain l0 c N0 EW CG HS) as CH. rewrite EW, map_app in NH. cbn [map] in NH. rewrite <- EW in NH.
  assert (MD : mode w = DNone).
  { rewrite MC. destruct (w_cases w) as [|c2 [|c3 r]]; try reflexivity. rewrite (ND c2 (or_introl eq_refl)), (ND c3 (or_intror (or_introl eq_refl))). reflexivity. }
  destruct (chain_none_last P I g CG (w_cond w) CL _ _ _ _ _ CH x RE NH O (as_lah _ _ AT) NE CX) as (_ & G). destruct (G MD) as (_ & G2).
  - exists (c_sym c1), t1, l1. split; [apply in_map; exact I1|auto].
  - apply G2; [|apply (hs_case _ _ _ _ HS); rewrite EW; apply in_app_iff; right; left; reflexivity]. intros t l NT TL. rewrite (NL t NT) in TL. discriminate.
Qed.
(** At the end of the data the switch is an error. *)
Theorem C76_end x : compiled P g -> has_switch P g lha w -> i_closed I = true -> at_switch I x -> w_cond w (s_env x) = true ->
  2 <= length (w_cases w) -> ahead I x = [] -> fails P I (top lha (w_cases w)) x.
Proof.
  intros CG HS CL AT CX LEN NE. pose proof (at_ok I x AT) as O. pose proof (switch_chain P g CG lha w HS) as CH. inversion CH as [s0 E0 E1 E2|cs ds s q c0 H1 F PC CN FL E0 E1 E2].
  - destruct (w_cases w) as [|c1 [|]]; cbn in LEN; try lia; discriminate.
  - exists 1. intros m. cbn [Nat.add]. eapply (chain_end P I g CG (w_cond w) CL); try eassumption; [|apply AT].
    intros c IC. rewrite E0 in IC. apply in_map_iff in IC. destruct IC as (c' & <- & IC'). apply (hs_case _ _ _ _ HS c' IC').
Qed.
(** A condition that does not hold leaves out the whole switch. *)
Theorem C76_condition x : compiled P g -> has_switch P g lha w -> 2 <= length (w_cases w) -> w_cond w (s_env x) = false -> forall m, parse P I (S m) (top lha (w_cases w)) x = Done x.
Proof.
  intros CG HS LEN CX m. pose proof (switch_chain P g CG lha w HS) as CH. inversion CH as [s0 E0 E1 E2|cs ds s q c0 H1 F PC CN FL E0 E1 E2].
  - destruct (w_cases w) as [|c1 [|]]; cbn in LEN; try lia; discriminate.
  - cbn [parse]. destruct CG as (_ & PP & _). rewrite (PP _ _ F). destruct (CN (s_env x)) as (-> & _). rewrite CX. reflexivity.
Qed.

(** The compiler rejects every unit that has a switch with a default as the third or a later case. *)
Theorem C76_late_default_rejected i c : has_switch P g lha w -> nth_error (w_cases w) i = Some c -> c_default c = true -> 2 <= i -> ~ compiled P g.
Proof.
  intros HS N D L CG. destruct (w_cases w) as [|c1 [|c2 r]] eqn:EW; [destruct i; discriminate|destruct i as [|[|]]; try discriminate; lia|].
  destruct i as [|[|i]]; try lia. cbn in N. apply nth_error_In in N. pose proof (early P g CG lha w HS c1 c2 r EW c N). congruence.
Qed.
(** With a default between other cases, the last case is taken if nothing matches. *)
Lemma between_default x c l0 c' : compiled P g -> has_switch P g lha w -> separate P g lha w -> i_closed I = true -> at_switch I x -> w_cond w (s_env x) = true ->
  nth_error (w_cases w) 1 = Some c -> c_default c = true -> w_cases w = l0 ++ [c'] ->
  ahead I x <> [] -> nothing_matches P I g lha w x -> goes_to P I (top lha (w_cases w)) x c'.
Proof.
  intros CG HS SE CL AT CX NC DC EW NE NM. pose proof (top_reached P g lha w HS) as RE. pose proof (at_ok I x AT) as O.
  pose proof (none_at x SE NM) as NH. pose proof mode_cases as MC. assert (N0 : l0 <> []) by (intros ->; rewrite EW in NC; discriminate).
  pose proof (last_chain l0 c' N0 EW CG HS) as CH. rewrite EW, map_app in NH. cbn [map] in NH. rewrite <- EW in NH.
  assert (MD : mode w = DSecond) by (rewrite MC; destruct (w_cases w) as [|c2 [|c3 r]]; try discriminate; injection NC as ->; rewrite DC; reflexivity).
  destruct (chain_none_last P I g CG (w_cond w) CL _ _ _ _ _ CH x RE NH O (as_lah _ _ AT) NE CX) as (G & _). apply G. exact MD.
Qed.
End T.

(** ** Examples
    unit { switch { ... } if ( cond ) &size=...; <behind> }  The cases are listed with what is in their blocks; the literal number [l] is the byte [l]. *)
Definition ex_lha (i : nat) : sym := 100 + i.
Fixpoint ex_cases (n : nat) (cs : list (bool * prod)) : list scase := match cs with [] => [] | c :: cs' => mkCase (fst c) (10 + n) :: ex_cases (S n) cs' end.
Fixpoint ex_blocks (n : nat) (cs : list (bool * prod)) : list (sym * prod) := match cs with [] => [] | c :: cs' => (10 + n, PBlock [30 + n] []) :: (30 + n, snd c) :: ex_blocks (S n) cs' end.
Definition ex_links (cs : list (bool * prod)) : list link := added ex_lha (ex_cases 0 cs).
Definition ex_prods (beh : prod) (cs : list (bool * prod)) : list (sym * prod) :=
  (0, PSeq [top ex_lha (ex_cases 0 cs); 9]) :: (9, beh) :: map (fun k => (k_sym k, PLook (k_first k) (k_second k))) (ex_links cs) ++ ex_blocks 0 cs.
Definition ex_unit (beh : prod) (cs : list (bool * prod)) : grammar := mkG (ex_prods beh cs) (flat_map (fun e => if is_terminal (snd e) then [] else [fst e]) (ex_prods beh cs)) 0.
Definition ex_switch (cs : list (bool * prod)) (cond : bool) (size : option nat) : switch (list bytes) := mkSwitch (ex_cases 0 cs) (fun _ => cond) (fun _ => size).
Definition ex_default (cs : list (bool * prod)) (s : sym) : ldefault := match List.find (fun k => Nat.eqb (k_sym k) s) (ex_links cs) with Some k => k_default k | None => DNone end.
Definition ex_prog (beh : prod) (cs : list (bool * prod)) (cond : bool) : prog (list bytes) :=
  mkProg (list bytes) (find (ex_unit beh cs)) (lahs_of (ex_unit beh cs)) (fun _ => None) (ex_default cs) (fun l => KBytes [Z.of_nat l]) (fun _ => true)
    (fun _ _ _ => RNone) (fun _ _ => one_byte) (fun s _ => if mem s (map k_sym (ex_links cs)) then cond else true) (fun _ _ => None) (fun _ _ => None) (fun _ => LEach true) (fun _ w e => Some (e ++ [w])) (fun _ e => Some (e, false)).
Lemma ex_compiled beh cs cond : compiled_b (ex_unit beh cs) = true -> compiled (ex_prog beh cs cond) (ex_unit beh cs).
Proof. intros H. apply compiled_ok; [exact H| |]; auto. Qed.

Definition has_b (beh : prod) (cs : list (bool * prod)) : bool :=
  forallb (fun k => match find (ex_unit beh cs) (k_sym k) with Some (PLook a b) => Nat.eqb a (k_first k) && Nat.eqb b (k_second k) | _ => false end &&
    match ex_default cs (k_sym k), k_default k with DNone, DNone | DFirst, DFirst | DSecond, DSecond => true | _, _ => false end) (ex_links cs) &&
  forallb (fun c => match find (ex_unit beh cs) (c_sym c) with Some (PBlock _ _) => true | _ => false end) (ex_cases 0 cs) &&
  Nat.leb (length (filter fst cs)) 1 && negb (null cs) &&
  forallb (fun e => forallb (fun rhs => forallb (fun x => negb (mem x (map k_sym (ex_links cs))) || Nat.eqb x (top ex_lha (ex_cases 0 cs)) || mem (fst e) (map k_sym (ex_links cs))) rhs) (rhss (snd e))) (ex_prods beh cs).
Lemma nth_cases cs : forall n i c, nth_error (ex_cases n cs) i = Some c -> exists p, nth_error cs i = Some (c_default c, p).
Proof.
  induction cs as [|[b p] cs IH]; intros n i c H; [destruct i; discriminate|]. destruct i as [|i]; cbn [ex_cases nth_error] in H.
  - injection H as <-. exists p. reflexivity.
  - destruct (IH _ _ _ H) as (p' & N). exists p'. exact N.
Qed.
Lemma one_default {A} (cs : list (bool * A)) : length (filter fst cs) <= 1 -> forall i j p q, nth_error cs i = Some (true, p) -> nth_error cs j = Some (true, q) -> i = j.
Proof.
  induction cs as [|[b a] cs IH]; intros L i j p q N M; [destruct i; discriminate|]. cbn [filter fst] in L.
  assert (Z : b = true -> forall k r, nth_error cs k <> Some (true, r)).
  { intros -> k r K. cbn [length] in L. apply nth_error_In in K. assert (X : In (true, r) (filter fst cs)) by (apply filter_In; split; [exact K|reflexivity]). destruct (filter fst cs); [destruct X|cbn in L; lia]. }
  destruct i as [|i], j as [|j]; cbn [nth_error] in N, M; try reflexivity.
  - injection N as -> ->. destruct (Z eq_refl _ _ M).
  - injection M as -> ->. destruct (Z eq_refl _ _ N).
  - f_equal. apply (IH) with (p := p) (q := q); try assumption. destruct b; cbn in L; lia.
Qed.
Lemma has_ok beh cs cond size : has_b beh cs = true -> has_switch (ex_prog beh cs cond) (ex_unit beh cs) ex_lha (ex_switch cs cond size).
Proof.
  intros H. unfold has_b in H. rewrite !andb_true_iff in H. destruct H as ((((H1 & H2) & H3) & H4) & H5). rewrite forallb_forall in H1, H2, H5. apply Nat.leb_le in H3. split.
  - unfold ex_lha. intros i j Q. lia.
  - intros i j c d N M DC DD. cbn [w_cases ex_switch] in N, M. apply nth_cases in N. apply nth_cases in M. destruct N as (p & N). destruct M as (q & M). rewrite DC in N. rewrite DD in M. exact (one_default cs H3 _ _ _ _ N M).
  - cbn. destruct cs as [|[b p] r]; discriminate.
  - intros k IK. specialize (H1 k IK). apply andb_true_iff in H1. destruct H1 as (F & D). split; [|split; [|split; [reflexivity|]]].
    + destruct (find (ex_unit beh cs) (k_sym k)) as [[]|]; try discriminate. apply andb_true_iff in F. destruct F as (A & B). apply Nat.eqb_eq in A, B. congruence.
    + cbn [p_default ex_prog]. destruct (ex_default cs (k_sym k)), (k_default k); congruence.
    + intros e. split; [|reflexivity]. cbn [p_cond ex_prog w_cond ex_switch]. assert (M : mem (k_sym k) (map k_sym (ex_links cs)) = true) by (apply mem_In, in_map; exact IK). rewrite M. reflexivity.
  - intros c IC. specialize (H2 c IC). cbn [p_prod ex_prog]. destruct (find (ex_unit beh cs) (c_sym c)) as [[]|]; try discriminate. eauto.
  - intros k s rhs IK A IR. apply alternative_iff in A. unfold rhss_of in A. destruct (find (ex_unit beh cs) s) as [p|] eqn:F; [|destruct A]. apply GrammarProps.find_in in F.
    specialize (H5 _ F). cbn [fst snd] in H5. rewrite forallb_forall in H5. specialize (H5 rhs A). rewrite forallb_forall in H5. specialize (H5 _ IR).
    assert (M : mem (k_sym k) (map k_sym (ex_links cs)) = true) by (apply mem_In, in_map; exact IK). rewrite M in H5. cbn [negb orb] in H5. apply orb_true_iff in H5. destruct H5 as [H5 | H5].
    + left. apply Nat.eqb_eq in H5. exact H5.
    + right. apply mem_In, in_map_iff in H5. destruct H5 as (k' & Q & IK'). exists k'. auto.
  - exists [], [9]. eapply der_step; [apply der_refl|]. apply (step_alt _ [] 0 [top ex_lha (ex_cases 0 cs); 9] []). apply alt_seq. reflexivity.
Qed.
(** All tokens the cases of an accepted switch can begin with *)
Definition ex_tokens (beh : prod) (cs : list (bool * prod)) : list sym := let v := lahs_of (ex_unit beh cs) (top ex_lha (ex_cases 0 cs)) in fst v ++ snd v.
Definition sep_b (beh : prod) (cs : list (bool * prod)) : bool :=
  forallb (fun t => forallb (fun t' => Nat.eqb t t' || match tok_of (ex_unit beh cs) t, tok_of (ex_unit beh cs) t' with Some l, Some l' => negb (Z.eqb (Z.of_nat l) (Z.of_nat l')) | _, _ => true end) (ex_tokens beh cs)) (ex_tokens beh cs).
Lemma any_in beh cs cond size t : has_b beh cs = true -> compiled_b (ex_unit beh cs) = true -> 2 <= length cs -> any_case (ex_unit beh cs) ex_lha (ex_switch cs cond size) t -> In t (ex_tokens beh cs).
Proof.
  intros H C L (c & IC & NT). pose proof (ex_compiled beh cs cond C) as CG. pose proof (has_ok beh cs cond size H) as HS. pose proof (switch_chain _ _ CG _ _ HS) as CH.
  assert (X : expected (ex_unit beh cs) (top ex_lha (ex_cases 0 cs)) t).
  { inversion CH as [s0 E0 E1 E2|cs1 ds s q c0 H1 F PC CN FL E0 E1 E2].
    - destruct cs as [|? [|]]; cbn in L; try lia. discriminate.
    - exists s, c0. split; [exact F|]. assert (IS : In (c_sym c) (cs1 ++ [c0])) by (rewrite E0; apply in_map; exact IC). apply in_app_iff in IS. unfold begins in NT. destruct IS as [IS | [Q | []]]; [left|right; rewrite Q; exact NT].
      eapply link_of_case; [exact H1|exact IS|exact NT]. }
  destruct (expected_in _ _ _ _ CG X) as (IT & _). exact IT.
Qed.
Lemma sep_ok beh cs cond size : has_b beh cs = true -> compiled_b (ex_unit beh cs) = true -> 2 <= length cs -> sep_b beh cs = true -> separate (ex_prog beh cs cond) (ex_unit beh cs) ex_lha (ex_switch cs cond size).
Proof.
  intros H C L S0. split.
  - intros t l _ _. exists [Z.of_nat l]. split; [reflexivity|discriminate].
  - intros t t' v v' A A' NE (l & TL & KV) (l' & TL' & KV') (u & PF). apply (any_in beh cs cond size t H C L) in A. apply (any_in beh cs cond size t' H C L) in A'.
    unfold sep_b in S0. rewrite forallb_forall in S0. specialize (S0 t A). rewrite forallb_forall in S0. specialize (S0 t' A'). rewrite TL, TL' in S0. cbn in KV, KV'. injection KV as <-. injection KV' as <-.
    apply orb_true_iff in S0. destruct S0 as [S0 | S0]; [apply Nat.eqb_eq in S0; congruence|]. injection PF as PF _. rewrite PF, Z.eqb_refl in S0. discriminate.
Qed.
Lemma start_at_switch d : at_switch (mkIn d true) (start [] ([] : list bytes)).
Proof. split; cbn; solve [reflexivity | lia | discriminate]. Qed.
Definition none_b (beh : prod) (cs : list (bool * prod)) (d : bytes) : bool :=
  forallb (fun t => match tok_of (ex_unit beh cs) t, d with Some l, b :: _ => negb (Z.eqb (Z.of_nat l) b) | _, _ => true end) (ex_tokens beh cs).
Lemma none_ok beh cs cond size d : has_b beh cs = true -> compiled_b (ex_unit beh cs) = true -> 2 <= length cs -> none_b beh cs d = true ->
  nothing_matches (ex_prog beh cs cond) (mkIn d true) (ex_unit beh cs) ex_lha (ex_switch cs cond size) (start [] ([] : list bytes)).
Proof.
  intros H C L N t v A (l & TL & KV) (u & PF). apply (any_in beh cs cond size t H C L) in A. unfold none_b in N. rewrite forallb_forall in N. specialize (N t A). rewrite TL in N. cbn in KV. injection KV as <-.
  unfold ahead in PF. cbn [start s_pos i_data skipn] in PF. subst d. cbn [app] in N. rewrite Z.eqb_refl in N. discriminate.
Qed.

(** A switch as in the test suite: accepted, with cases that can be told apart. *)
Definition good (beh : prod) (cs : list (bool * prod)) : bool := has_b beh cs && compiled_b (ex_unit beh cs) && Nat.leb 2 (length cs) && sep_b beh cs.
Lemma good_ok beh cs cond size : good beh cs = true -> let P := ex_prog beh cs cond in let g := ex_unit beh cs in let w := ex_switch cs cond size in
  compiled P g /\ has_switch P g ex_lha w /\ separate P g ex_lha w /\ forall d, none_b beh cs d = true -> nothing_matches P (mkIn d true) g ex_lha w (start [] ([] : list bytes)).
Proof.
  unfold good. rewrite !andb_true_iff. intros (((H & C) & L) & S0). apply Nat.leb_le in L. cbv zeta. split; [apply ex_compiled; exact C|]. split; [apply has_ok; exact H|]. split; [apply sep_ok; assumption|].
  intros d N. apply none_ok; assumption.
Qed.
Definition run_unit (beh : prod) (cs : list (bool * prod)) (cond : bool) (d : bytes) : seen (list bytes) := seen_of (parse (ex_prog beh cs cond) (mkIn d true) 20 0 (start [] [])).
Definition dot : prod := PCtor 46.
(** The hypotheses of C76_default hold for unit { switch { * -> : uint8; -> a: b"a"; -> b: b"b"; }; : b"."; } on "x."; the ones of C76_last for
    unit { switch { -> a: b"a"; -> b: b"b"; -> : uint8; }; : b"."; }; the ones of C76_no_match for unit { switch { -> a: b"a"; -> b: b"b"; }; : b"."; }. *)
Definition ex_first : list (bool * prod) := [(true, PVar 1); (false, PCtor 97); (false, PCtor 98)].
Definition ex_last : list (bool * prod) := [(false, PCtor 97); (false, PCtor 98); (false, PVar 1)].
Definition ex_two : list (bool * prod) := [(false, PCtor 97); (false, PCtor 98)].
Example ex_good : good dot ex_first = true /\ good dot ex_last = true /\ good dot ex_two = true /\
  none_b dot ex_first [120; 46]%Z = true /\ none_b dot ex_last [120; 46]%Z = true /\ none_b dot ex_two [120; 46]%Z = true.
Proof. vm_compute. repeat split. Qed.
Example ex_runs : run_unit dot ex_first true [98; 46]%Z = Parsed 2 [[98]; [46]]%Z /\ run_unit dot ex_first true [120; 46]%Z = Parsed 2 [[120]; [46]]%Z /\
  run_unit dot ex_last true [97; 46]%Z = Parsed 2 [[97]; [46]]%Z /\ run_unit dot ex_last true [120; 46]%Z = Parsed 2 [[120]; [46]]%Z /\
  run_unit dot ex_two true [120; 46]%Z = ParseError /\ run_unit dot ex_two false [46]%Z = Parsed 1 [[46]]%Z.
Proof. vm_compute. repeat split. Qed.
(** A case and a token it begins with. *)
Lemma ex_begins beh cs cond size c t b : In c (ex_cases 0 cs) -> find (ex_unit beh cs) (c_sym c) = Some (PBlock [t] []) -> find (ex_unit beh cs) t = Some (PCtor b) ->
  begins (ex_unit beh cs) ex_lha (ex_switch cs cond size) c t /\ word (ex_prog beh cs cond) (ex_unit beh cs) t [Z.of_nat b].
Proof.
  intros IC FC FT. split.
  - exists [], [9]. split.
    + eapply der_step; [apply der_refl|]. apply (step_alt _ [] 0 [top ex_lha (ex_cases 0 cs); 9] []). apply alt_seq. reflexivity.
    + split; [exists (PCtor b); repeat split; [exact FT|discriminate]|]. exists [9]. eapply der_step; [apply der_refl|]. apply (step_alt _ [] (c_sym c) [t] [9]). eapply alt_then. exact FC.
  - exists b. split; [unfold tok_of; rewrite FT; reflexivity|reflexivity].
Qed.
Example ex_selects : goes_to (ex_prog dot ex_first true) (mkIn [98; 46]%Z true) 102 (start [] []) (mkCase false 12).
Proof.
  destruct (good_ok dot ex_first true None (proj1 ex_good)) as (C & H & S0 & _). destruct (ex_begins dot ex_first true None (mkCase false 12) 32 98) as (B & W); [right; right; left; reflexivity|reflexivity|reflexivity|].
  apply (C76_selects _ _ _ _ _ _ (mkCase false 12) 32 [98]%Z C H S0); try assumption; try reflexivity; [apply start_at_switch|right; right; left; reflexivity|exists [46]%Z; reflexivity].
Qed.
Example ex_default_taken : goes_to (ex_prog dot ex_first true) (mkIn [120; 46]%Z true) 102 (start [] []) (mkCase true 10).
Proof.
  destruct (good_ok dot ex_first true None (proj1 ex_good)) as (C & H & S0 & N).
  apply (C76_default _ _ _ _ _ _ (mkCase true 10) 0 C H S0); try reflexivity; [apply start_at_switch|left; reflexivity|discriminate|apply N; apply ex_good].
Qed.

(** A default between other cases is not taken: the last case is.  unit { switch { -> a: b"a"; * -> : uint8; -> b: b"b"; }; : b"."; } on "x.": parse error,
    while with the default in front (ex_first) the unit is parsed. *)
Definition ex_between : list (bool * prod) := [(false, PCtor 97); (true, PVar 1); (false, PCtor 98)].
Theorem C76_between_default_refuted :
  (forall E (P : prog E) I g lha w x c l0 c', compiled P g -> has_switch P g lha w -> separate P g lha w -> i_closed I = true -> at_switch I x -> w_cond w (s_env x) = true ->
    nth_error (w_cases w) 1 = Some c -> c_default c = true -> w_cases w = l0 ++ [c'] ->
    ahead I x <> [] -> nothing_matches P I g lha w x -> goes_to P I (top lha (w_cases w)) x c') /\
  good dot ex_between = true /\ none_b dot ex_between [120; 46]%Z = true /\
  run_unit dot ex_between true [120; 46]%Z = ParseError /\ run_unit dot ex_first true [120; 46]%Z = Parsed 2 [[120]; [46]]%Z.
Proof. split; [intros; eapply between_default; eassumption|]. vm_compute. repeat split. Qed.
(** With the default as the last of three cases the compiler reports an ambiguity.  unit { switch { -> a: b"a"; -> b: b"b"; * -> : uint8; }; : b"."; } *)
Definition ex_late : list (bool * prod) := [(false, PCtor 97); (false, PCtor 98); (true, PVar 1)].
Theorem C76_late_default_refuted :
  has_switch (ex_prog dot ex_late true) (ex_unit dot ex_late) ex_lha (ex_switch ex_late true None) /\ complete (ex_unit dot ex_late) /\
  finalize 2 200 (ex_unit dot ex_late) = Some (Rejected (Ambiguous 102)) /\ good dot ex_first = true /\ good dot ex_last = true.
Proof.
  split; [apply has_ok; vm_compute; reflexivity|]. split; [apply complete_b_ok; vm_compute; reflexivity|]. vm_compute. repeat split.
Qed.
(** A default without any input is not taken at the end of the data.  unit { switch { * -> : void; -> a: b"a"; }; : void; } on "". *)
Definition ex_void : list (bool * prod) := [(true, PEpsilon); (false, PCtor 97)].
Theorem C76_default_at_end_refuted :
  good PEpsilon ex_void = true /\ can_be_empty (ex_unit PEpsilon ex_void) 10 /\ run_unit PEpsilon ex_void true [] = ParseError /\ run_unit PEpsilon ex_void true [120]%Z = Parsed 0 [].
Proof.
  split; [vm_compute; reflexivity|]. split; [|vm_compute; split; reflexivity].
  eapply der_step; [eapply der_step; [apply der_refl|]|]; [apply (step_alt _ [] 10 [30] []); eapply alt_then; reflexivity|apply (step_eps _ [] 30 []); reflexivity].
Qed.
(** &size of the switch does not limit it.  unit { switch { -> a: b"a"; -> b: b"b"; } &size=2; : b"."; } on "a.": the switch ends after one byte. *)
Theorem C76_size_refuted : exists (P : prog (list bytes)) g w y, compiled P g /\ has_switch P g ex_lha w /\ separate P g ex_lha w /\ w_size w [] = Some 2 /\
  parse P (mkIn [97; 46]%Z true) 20 (top ex_lha (w_cases w)) (start [] []) = Done y /\ s_pos y = 1.
Proof.
  destruct (good_ok dot ex_two true (Some 2) (proj1 (proj2 (proj2 ex_good)))) as (C & H & S0 & _).
  exists (ex_prog dot ex_two true), (ex_unit dot ex_two), (ex_switch ex_two true (Some 2)). eexists. split; [exact C|]. split; [exact H|]. split; [exact S0|]. split; [reflexivity|].
  split; [vm_compute; reflexivity|reflexivity].
Qed.
(** The condition of a switch with a single case is ignored.  unit { switch { -> a: b"a"; } if ( False ); : b"."; } on ".". *)
Definition ex_one : list (bool * prod) := [(false, PCtor 97)].
Theorem C76_single_condition_refuted : compiled (ex_prog dot ex_one false) (ex_unit dot ex_one) /\ has_switch (ex_prog dot ex_one false) (ex_unit dot ex_one) ex_lha (ex_switch ex_one false None) /\
  w_cond (ex_switch ex_one false None) [] = false /\ run_unit dot ex_one false [46]%Z = ParseError /\ run_unit dot ex_two false [46]%Z = Parsed 1 [[46]]%Z.
Proof.
  split; [apply ex_compiled; vm_compute; reflexivity|]. split; [apply has_ok; vm_compute; reflexivity|]. vm_compute. repeat split.
Qed.
(** A case that does not begin with a literal is never taken unless it is the last one.  unit { switch { -> a: b"a"; -> : uint8; -> b: b"b"; }; : b"."; } on "x." *)
Definition ex_middle : list (bool * prod) := [(false, PCtor 97); (false, PVar 1); (false, PCtor 98)].
Theorem C76_no_literal_refuted : good dot ex_middle = true /\ run_unit dot ex_middle true [120; 46]%Z = ParseError /\ run_unit dot ex_last true [120; 46]%Z = Parsed 2 [[120]; [46]]%Z.
Proof. vm_compute. repeat split. Qed.
