(** C73, C74, C75: the parser generated for a unit, with look-ahead. *)
From Verif Require Import Base GrammarModel GrammarSpec GrammarProofs GrammarProofs2 GrammarProofs3 GrammarProps LahModel LahSpec LahSpec2 LahProofs LahProofs2 LahProofs3 LahProofs4 LahProofs5.
Local Open Scope nat_scope.

(** What the user sees of a run: parsed up to an offset with a state of the program, an error, or waiting for more input.  The last one: more recursion and
    iterations than allowed for here. *)
Inductive seen (E : Type) := Parsed (j : nat) (e : E) | ParseError | Waiting | TooDeep.
Arguments Parsed {E} j e. Arguments ParseError {E}. Arguments Waiting {E}. Arguments TooDeep {E}.
Definition seen_of {E} (r : result E) : seen E :=
  match r with Done x => Parsed (s_pos x) (s_env x) | Fail => ParseError | Suspended => Waiting | NoFuel => TooDeep end.

Lemma start_inv {E} I sched (e : E) : inv I (start sched e).
Proof. split; cbn; solve [lia | discriminate]. Qed.
Lemma start_sim {E} I I' sched sched' (e : E) : sim I I' (start sched e) (start sched' e).
Proof. split; [apply start_inv|]. split; [apply start_inv|]. repeat split. Qed.

(** C73.  Whatever pieces the input arrives in, the outcome is the same; and what is decided before the input is complete stays as it is whatever
    else arrives. *)
Theorem C73_arrival {E} (P : prog E) I m s e sched sched' : leaf_ok P ->
  seen_of (parse P I m s (start sched e)) = seen_of (parse P I m s (start sched' e)).
Proof.
  intros LO. pose proof (rel_parse P I I (or_introl eq_refl) LO m s _ _ (start_sim I I sched sched' e)) as R.
  destruct (parse P I m s (start sched e)) as [x| | |]; cbn [rel] in R.
  - destruct R as (y & -> & (_ & _ & (A & _ & _ & _ & B))). cbn. congruence.
  - rewrite R. reflexivity.
  - rewrite (R eq_refl). reflexivity.
  - rewrite R. reflexivity.
Qed.
Theorem C73_decided_stays {E} (P : prog E) data more closed m s e sched sched' : leaf_ok P ->
  seen_of (parse P (mkIn data false) m s (start sched e)) <> Waiting ->
  seen_of (parse P (mkIn (data ++ more) closed) m s (start sched' e)) = seen_of (parse P (mkIn data false) m s (start sched e)).
Proof.
  intros LO NW. assert (EX : extends (mkIn data false) (mkIn (data ++ more) closed)) by (right; split; [reflexivity|exists more; reflexivity]).
  pose proof (rel_parse P _ _ EX LO m s _ _ (start_sim (mkIn data false) (mkIn (data ++ more) closed) sched sched' e)) as R.
  destruct (parse P (mkIn data false) m s (start sched e)) as [x| | |]; cbn [rel] in R.
  - destruct R as (y & -> & (_ & _ & (A & _ & _ & _ & B))). cbn. congruence.
  - rewrite R. reflexivity.
  - cbn in NW. congruence.
  - rewrite R. reflexivity.
Qed.

(** C74.  When a unit has been parsed successfully, the input is what its declaration says. *)
Theorem C74_sound {E} (P : prog E) I Z m s e sched j e' : leaf_ok P -> zone P Z -> bytes_look_aheads P ->
  seen_of (parse P I m s (start sched e)) = Parsed j e' -> parsed P I None s e 0 e' j.
Proof.
  intros LO ZN BL H. destruct (parse P I m s (start sched e)) as [y| | |] eqn:R; try discriminate. injection H as <- <-.
  assert (O : ok I (start sched e)) by (split; [apply start_inv|cbn; lia]).
  destruct (parse_post P I LO Z ZN BL m s (start sched e) y (or_intror eq_refl) O R) as (_ & _ & D). exact D.
Qed.

(** C75.  Every reading of the input that the declaration of a unit allows is found. *)
Theorem C75_complete {E} (P : prog E) I all g e e' j : leaf_ok P -> i_closed I = true -> units P all g -> ends_at P I all g j ->
  parsed P I None (g_root g) e 0 e' j ->
  exists M, forall m sched, M <= m -> seen_of (parse P I m (g_root g) (start sched e)) = Parsed j e'.
Proof.
  intros LO CL UN EA D. pose proof (un_main _ _ _ UN) as AG. assert (FN : find g (g_root g) <> None) by (destruct (un_compiled _ _ _ UN g AG) as (CC & _); apply (cp_root _ CC)).
  destruct (proj1 (finds P I LO CL all g UN j EA) None (g_root g) e 0 e' j D eq_refl g AG FN (pl_root _ _ (un_plain _ _ _ UN g AG)) (own_root P g)) as (tr & D1 & F1 & H1 & R).
  destruct (R [] [] [] [] (start [] e)) as (M & y & RY & OY & PY & EY & _).
  - constructor.
  - constructor.
  - constructor.
  - apply bh_main.
  - reflexivity.
  - split; [split; [apply start_inv|cbn; lia]|reflexivity].
  - reflexivity.
  - reflexivity.
  - apply Nat.le_refl.
  - exists M. intros m sched L. rewrite (C73_arrival P I m (g_root g) e sched [] LO). rewrite (RY m m L L). cbn. congruence.
Qed.
(** Hence there is only one. *)
Theorem C75_unambiguous {E} (P : prog E) I all g e e1 j1 e2 j2 : leaf_ok P -> i_closed I = true -> units P all g -> ends_at P I all g j1 -> ends_at P I all g j2 ->
  parsed P I None (g_root g) e 0 e1 j1 -> parsed P I None (g_root g) e 0 e2 j2 -> e1 = e2 /\ j1 = j2.
Proof.
  intros LO CL UN EA1 EA2 D1 D2.
  destruct (C75_complete P I all g e e1 j1 LO CL UN EA1 D1) as (M1 & R1).
  destruct (C75_complete P I all g e e2 j2 LO CL UN EA2 D2) as (M2 & R2).
  specialize (R1 (Nat.max M1 M2) [] ltac:(lia)). specialize (R2 (Nat.max M1 M2) [] ltac:(lia)). rewrite R1 in R2. injection R2 as -> ->. auto.
Qed.
(** Both directions. *)
Theorem C75_exact {E} (P : prog E) I all g Z e e' j sched : leaf_ok P -> i_closed I = true -> units P all g -> zone P Z -> bytes_look_aheads P ->
  ends_at P I all g j ->
  (exists m, seen_of (parse P I m (g_root g) (start sched e)) = Parsed j e') <-> parsed P I None (g_root g) e 0 e' j.
Proof.
  intros LO CL UN ZN BL EA. split.
  - intros (m & H). eapply C74_sound; eassumption.
  - intros D. destruct (C75_complete P I all g e e' j LO CL UN EA D) as (M & R). exists M. apply R. lia.
Qed.

(** ** Building example programs *)
Definition lahs_of (g : grammar) : sym -> list sym * list sym :=
  match finalize 2 200 g with
  | Some (Accepted g' t) => fun s => match find g' s with Some (PLook a b) => look_ahead_sets g' t s a b | _ => ([], []) end
  | _ => fun _ => ([], [])
  end.
(** Variables take one byte.  The program records the bytes of its fields. *)
Definition one_byte (av : bytes) (fin : bool) : vres := match av with [] => if fin then VFail else VWait | _ => VOk 1 end.
Definition mk (g h : grammar) (call : sym -> option sym) (kind : lit -> kind) (inuse : lit -> bool) (size : sym -> option nat) (count : sym -> nat) : prog (list bytes) :=
  mkProg (list bytes) (fun s => match find g s with Some p => Some p | None => find h s end) (fun s => match find g s with Some _ => lahs_of g s | None => lahs_of h s end) call (fun _ => DNone) kind inuse
    (fun _ _ _ => RNone) (fun _ _ => one_byte) (fun _ _ => true) (fun s _ => size s) (fun _ _ => None) (fun s => LCount (fun _ => count s)) (fun _ w e => Some (e ++ [w])) (fun _ e => Some (e, false)).
Lemma mk_leaf_ok g h call kind inuse size count : leaf_ok (mk g h call kind inuse size count).
Proof.
  split; cbn.
  - intros _ _ [|a av] fin n; cbn; [destruct fin; discriminate|]. intros H. injection H as <-. lia.
  - discriminate.
  - intros _ _ [|a av] more0 fin H; [exfalso; apply H; reflexivity|reflexivity].
  - reflexivity.
Qed.
Definition expected_b (g : grammar) (ls : list sym * list sym) : list sym := fst ls ++ snd ls.
Definition is_bytes (k : kind) : option bytes := match k with KBytes w => Some w | _ => None end.
Definition lit_bytes {E} (P : prog E) (g : grammar) (t : sym) : option bytes :=
  match tok_of g t with Some l => if p_inuse P l then is_bytes (p_kind P l) else None | None => None end.
Definition lits_b {E} (P : prog E) (g : grammar) : bool :=
  forallb (fun e => match snd e with
    | PLook _ _ => let l := expected_b g (p_lahs P (fst e)) in
        forallb (fun t => match lit_bytes P g t with Some (_ :: _) => true | _ => false end) l &&
        forallb (fun t => forallb (fun t' => Nat.eqb t t' || match lit_bytes P g t, lit_bytes P g t' with Some w, Some w' => negb (bytes_eqb w (firstn (length w) w')) | _, _ => false end) l) l
    | _ => true
    end) (g_prods g).
Lemma expected_in {E} (P : prog E) g s t : compiled P g -> expected g s t -> In t (expected_b g (p_lahs P s)) /\ exists a b, In (s, PLook a b) (g_prods g).
Proof.
  intros C (a & b & F & NT). assert (RE : reached g s) by (destruct NT as [(u & v & D & _) | (u & v & D & _)]; exists u, v; exact D).
  destruct (sets_exact0 P g s a b C RE F) as (v0 & v1 & PL & X0 & X1 & _). split; [|exists a, b; apply find_in; exact F].
  unfold expected_b. rewrite PL. cbn. apply in_app_iff. destruct NT as [NT | NT]; [left; apply X0; exact NT|right; apply X1; exact NT].
Qed.
Lemma lits_ok {E} (P : prog E) g : compiled P g -> lits_b P g = true -> distinct_literals P g.
Proof.
  intros C H. unfold lits_b in H. rewrite forallb_forall in H. split.
  - intros s t EX. destruct (expected_in P g s t C EX) as (IT & a & b & IP). specialize (H _ IP). cbn [snd fst] in H. apply andb_true_iff in H. destruct H as (H & _).
    rewrite forallb_forall in H. specialize (H t IT). unfold lit_bytes, tok_of in H. destruct (find g t) as [p|]; [|discriminate]. destruct (token_id p) as [l|] eqn:T; [|discriminate].
    destruct (p_inuse P l) eqn:U; [|discriminate]. destruct (p_kind P l) as [w|w|] eqn:K; try discriminate. exists p, l, w. cbn in H. destruct w; [discriminate|]. repeat split; try assumption; discriminate.
  - intros s t t' p p' l l' w w' EX EX' NE F T K F' T' K' (u & PF). destruct (expected_in P g s t C EX) as (IT & a & b & IP). destruct (expected_in P g s t' C EX') as (IT' & _).
    specialize (H _ IP). cbn [snd fst] in H. apply andb_true_iff in H. destruct H as (H0 & H). rewrite forallb_forall in H, H0. pose proof (H0 t IT) as U. pose proof (H0 t' IT') as U'.
    specialize (H t IT). rewrite forallb_forall in H. specialize (H t' IT'). unfold lit_bytes, tok_of in *. rewrite F, T in *. rewrite F', T' in *.
    destruct (p_inuse P l); [|discriminate]. destruct (p_inuse P l'); [|discriminate]. rewrite K, K' in H. cbn in H. apply orb_true_iff in H. destruct H as [H | H]; [apply Nat.eqb_eq in H; congruence|].
    rewrite PF, firstn_app, Nat.sub_diag, firstn_all, firstn_O, app_nil_r, bytes_eqb_refl in H. discriminate.
Qed.
Definition compiled_b (g : grammar) : bool := complete_b g && match finalize 2 200 g with Some (Accepted _ _) => true | _ => false end.
Lemma compiled_ok {E} (P : prog E) g : compiled_b g = true -> (forall s p, find g s = Some p -> p_prod P s = Some p) -> (forall s, find g s <> None -> p_lahs P s = lahs_of g s) -> compiled P g.
Proof.
  intros H PP PL. unfold compiled_b in H. apply andb_true_iff in H. destruct H as (C & H). split; [apply complete_b_ok; exact C|]. split; [exact PP|].
  destruct (finalize 2 200 g) as [[g' t|]|] eqn:FZ; try discriminate. exists 2, 200, g', t. split; [exact FZ|]. intros s a b F. rewrite PL.
  - unfold lahs_of. rewrite FZ, F. reflexivity.
  - destruct (finalize_inv _ _ _ _ _ (complete_b_ok _ C) FZ) as (SF & _). intros N. pose proof (sf_complete _ _ SF) as C'.
    assert (NT : In s (g_nterms g')) by (apply (cp_nterm _ C'); eexists; split; [exact F|reflexivity]). apply (sf_nterms _ _ SF) in NT. destruct NT as (_ & PT).
    rewrite <- (sf_find _ _ SF s PT), F in N. discriminate.
Qed.

Lemma mk_compiled g h call kind inuse size count : compiled_b g = true -> compiled (mk g h call kind inuse size count) g.
Proof. intros H. apply compiled_ok; [exact H| |]; intros s; [intros p F|intros F]; cbn [p_prod p_lahs mk]; destruct (find g s); congruence. Qed.
Definition inner_l (g : grammar) : list sym :=
  flat_map (fun e => match find g (fst e) with Some (PWhile l1) => match find g l1 with Some (PLook _ l2) => [l1; l2] | _ => [] end | _ => [] end) (g_prods g).
Lemma inner_iff g s : inner g s <-> In s (inner_l g).
Proof.
  unfold inner_l. rewrite in_flat_map. split.
  - intros (l1 & eps & l2 & (w & FW) & F1 & Q). exists (w, PWhile l1). split; [apply find_in; exact FW|]. cbn [fst]. rewrite FW, F1. destruct Q as [-> | ->]; [left|right; left]; reflexivity.
  - intros ((w & p) & IE & H). cbn [fst] in H. destruct (find g w) as [[]|] eqn:FW; try destruct H. destruct (find g body_for_grammar) as [[]|] eqn:F1; try destruct H.
    + subst. exists s, a, b. split; [exists w; exact FW|auto].
    + destruct H as [<- | []]. exists body_for_grammar, a, b. split; [exists w; exact FW|auto].
Qed.
Definition plain_b (g : grammar) : bool :=
  negb (mem (g_root g) (inner_l g)) &&
  forallb (fun e => match snd e with
    | PLoop _ => false
    | PWhile l1 => match find g l1 with
        | Some (PLook eps l2) => match find g eps, find g l2 with Some PEpsilon, Some (PSeq [b; l1']) => Nat.eqb l1 l1' && negb (mem b (inner_l g)) | _, _ => false end
        | _ => false
        end
    | p => mem (fst e) (inner_l g) || forallb (fun rhs => forallb (fun c => negb (mem c (inner_l g))) rhs) (rhss p)
    end) (g_prods g).
Definition calls_b {E} (P : prog E) (g : grammar) : bool :=
  forallb (fun e => match p_call P (fst e) with None => true | Some _ => negb (mem (fst e) (inner_l g)) && match snd e with PBlock _ _ => false | _ => true end end) (g_prods g).
Lemma plain_ok g {E} (P : prog E) : plain_b g = true -> (forall s e, p_size P s e = None) -> (forall s e, p_cond P s e = true) -> (forall s, p_default P s = DNone) -> calls_b P g = true -> plain P g.
Proof.
  intros H SZ CN DN CB. unfold calls_b in CB. rewrite forallb_forall in CB. unfold plain_b in H. apply andb_true_iff in H. destruct H as (HR & H). rewrite forallb_forall in H. split.
  - intros s b F. specialize (H _ (find_in _ _ _ F)). discriminate.
  - intros s e _. apply SZ.
  - intros s p e _. left. apply CN.
  - intros s l1 F. specialize (H _ (find_in _ _ _ F)). cbn [snd] in H. destruct (find g l1) as [[]|] eqn:F1; try discriminate. destruct (find g a) as [[]|] eqn:F2; try discriminate.
    destruct (find g b) as [[ps| | | | | | | | | |]|] eqn:F3; try discriminate. destruct ps as [|b0 [|l1' [|]]]; try discriminate. apply andb_true_iff in H. destruct H as (H & NB). apply Nat.eqb_eq in H. subst l1'.
    exists a, b, b0. repeat (split; [assumption || reflexivity|]). 
    assert (IC : forall c p, find g c = Some p -> inner g c -> p_call P c = None).
    { intros c p FC IN. specialize (CB _ (find_in _ _ _ FC)). cbn [fst] in CB. destruct (p_call P c); [exfalso|reflexivity]. apply inner_iff, mem_In in IN. rewrite IN in CB. discriminate. }
    assert (LL : list_look g l1) by (exists s; exact F).
    split; [intros IB; apply inner_iff in IB; apply mem_In in IB; rewrite IB in NB; discriminate|]. split; [apply DN|]. split; [apply (IC _ _ F1)|apply (IC _ _ F3)]; exists l1, a, b; auto.
  - intros s ps es F. specialize (CB _ (find_in _ _ _ F)). cbn [fst snd] in CB. destruct (p_call P s); [|reflexivity]. rewrite andb_false_r in CB. discriminate.
  - intros s rhs c A IC IN. apply alternative_iff in A. unfold rhss_of in A. destruct (find g s) as [p|] eqn:F; [|destruct A]. specialize (H _ (find_in _ _ _ F)). cbn [fst snd] in H.
    assert (G : (exists l1, p = PWhile l1) \/ mem s (inner_l g) || forallb (fun rhs => forallb (fun c => negb (mem c (inner_l g))) rhs) (rhss p) = true) by (destruct p; eauto; discriminate).
    destruct G as [(l1 & ->) | G]; [right; exists l1; reflexivity|left]. apply orb_true_iff in G. destruct G as [G | G]; [apply inner_iff, mem_In; exact G|exfalso].
    rewrite forallb_forall in G. specialize (G rhs A). rewrite forallb_forall in G. specialize (G c IC). apply inner_iff in IN. apply mem_In in IN. rewrite IN in G. discriminate.
  - intros IR. apply inner_iff in IR. apply mem_In in IR. rewrite IR in HR. discriminate.
Qed.
Lemma no_size_zone {E} (P : prog E) : (forall s e, p_size P s e = None) -> zone P (fun _ => False).
Proof. intros H. split; intros; try contradiction. congruence. Qed.
Lemma keys_of g s : find g s <> None -> In s (map fst (g_prods g)).
Proof. destruct (find g s) as [p|] eqn:F; [|congruence]. intros _. apply find_in in F. apply in_map_iff. exists (s, p). auto. Qed.

(** A unit's productions within another unit's grammar. *)
Definition ren (f : sym -> sym) (p : prod) : prod :=
  match p with
  | PSeq ps => PSeq (map f ps) | PLook a b => PLook (f a) (f b) | PSwitch cs d => PSwitch (map f cs) (option_map f d)
  | PBlock ps es => PBlock (map f ps) (map f es) | PLoop b => PLoop (f b) | PWhile b => PWhile (f b) | PEnclosure b => PEnclosure (f b)
  | p => p
  end.
Definition copied (g h : grammar) (f : sym -> sym) : Prop := forall s p, find h s = Some p -> find g (f s) = Some (ren f p).
Lemma copy_alt g h f s rhs : copied g h f -> alternative h s rhs -> alternative g (f s) (map f rhs).
Proof.
  intros C A. inversion A as [ps F|a b F|a b F|cs d c F IC|cs d F|ps es F|ps es F NE|b F|b F|b F]; subst; pose proof (C _ _ F) as G; cbn [ren map option_map] in *.
  - apply alt_seq. exact G.
  - eapply alt_look1; exact G.
  - eapply alt_look2; exact G.
  - eapply alt_case; [exact G|apply in_map; exact IC].
  - eapply alt_default; exact G.
  - eapply alt_then; exact G.
  - eapply alt_else; [exact G|destruct rhs; [congruence|discriminate]].
  - apply alt_loop; exact G.
  - apply alt_while; exact G.
  - apply alt_enclosure; exact G.
Qed.
Lemma copy_derives g h f l m : copied g h f -> derives h l m -> derives g (map f l) (map f m).
Proof.
  intros C D. induction D as [l|l m n D IH ST]; [constructor|]. eapply der_step; [exact IH|]. inversion ST as [u s rhs v A|u s v F]; subst.
  - rewrite !map_app. cbn [map]. apply step_alt. eapply copy_alt; eassumption.
  - rewrite !map_app. cbn [map]. apply step_eps. rewrite (C _ _ F). reflexivity.
Qed.
Lemma copy_tokens g h f s r : copied g h f -> f r = s -> forall tr, Forall (token h) tr -> derives h [r] tr ->
  exists tr', Forall (token g) tr' /\ derives g [s] tr' /\ map (tok_of g) tr' = map (tok_of h) tr.
Proof.
  intros C <- tr FT D. exists (map f tr). split; [|split; [apply (copy_derives g h f _ _ C D)|]].
  - rewrite Forall_forall in *. intros t IT. apply in_map_iff in IT. destruct IT as (t0 & <- & IT). destruct (FT t0 IT) as (p & F & L & N). exists (ren f p).
    split; [apply C; exact F|]. destruct p; cbn in *; try discriminate; (split; [reflexivity|discriminate]) || congruence.
  - rewrite map_map. apply map_ext_in. intros t IT. rewrite Forall_forall in FT. destruct (FT t IT) as (p & F & L & _). unfold tok_of. rewrite F, (C _ _ F). destruct p; cbn in *; reflexivity || discriminate.
Qed.
(** What the tables say. *)
Definition table {A} (g : grammar) (f : tables -> A) (d : A) : A := match finalize 2 200 g with Some (Accepted _ t) => f t | _ => d end.
Lemma tables_say g s : compiled_b g = true -> reached g s -> In s (g_nterms g) ->
  (can_be_empty g s <-> table g (fun t => t_null t s) false = true) /\ (forall x, can_follow g s x <-> In x (table g (fun t => t_follow t s) [])).
Proof.
  intros H RE NT. unfold compiled_b in H. apply andb_true_iff in H. destruct H as (C & H). apply complete_b_ok in C. unfold table. destruct (finalize 2 200 g) as [[g' t|]|] eqn:FZ; try discriminate.
  assert (NT' : In s (g_nterms g')) by (apply (C49_simplify_exact _ _ _ _ _ C FZ); split; assumption).
  destruct (C49_tables_exact _ _ _ _ _ C FZ s NT') as (A & _ & B). split; [symmetry; exact A|]. intros x. symmetry. apply B.
Qed.

(** Non-vacuity: unit { : b"!"; items: Item[]; } with Item = unit { : b"#"; v: uint8; xs: (b"x")[]; }, on "!#1xx#2?". *)
Definition ex_item : grammar :=
  mkG [(20, PSeq [21; 22; 23]); (21, PCtor 101); (22, PVar 0); (23, PWhile 24); (24, PLook 25 26); (25, PEpsilon); (26, PSeq [27; 24]); (27, PCtor 103)] [20; 23; 24; 26] 20.
Definition ex_unit : grammar :=
  mkG [(0, PSeq [9; 1]); (1, PWhile 2); (2, PLook 3 4); (3, PEpsilon); (4, PSeq [40; 2]);
       (40, PSeq [41; 42; 43]); (41, PCtor 101); (42, PVar 0); (43, PWhile 44); (44, PLook 45 46); (45, PEpsilon); (46, PSeq [47; 44]); (47, PCtor 103); (9, PCtor 102)] [0; 1; 2; 4; 40; 43; 44; 46] 0.
Definition ex_prog : prog (list bytes) :=
  mk ex_unit ex_item (fun s => if Nat.eqb s 40 then Some 20 else None) (fun l => if Nat.eqb l 101 then KBytes [35]%Z else if Nat.eqb l 102 then KBytes [33]%Z else KBytes [120]%Z) (fun l => negb (Nat.eqb l 102)) (fun _ => None) (fun _ => 0).
Definition ex_input : input := mkIn [33; 35; 49; 120; 120; 35; 50; 63]%Z true.
Definition ex_units (g : grammar) : Prop := g = ex_unit \/ g = ex_item.
Lemma ex_ok1 : compiled_b ex_unit = true. Proof. vm_compute. reflexivity. Qed.
Lemma ex_ok2 : compiled_b ex_item = true. Proof. vm_compute. reflexivity. Qed.
Lemma ex_compiled1 : compiled ex_prog ex_unit. Proof. apply mk_compiled. exact ex_ok1. Qed.
Lemma ex_compiled2 : compiled ex_prog ex_item.
Proof.
  apply compiled_ok; [exact ex_ok2| |].
  - intros s p F. cbn [p_prod ex_prog mk]. assert (K : find ex_unit s = None).
    { assert (IS : In s (map fst (g_prods ex_item))) by (apply keys_of; congruence). repeat (destruct IS as [<- | IS]; [reflexivity|]). destruct IS. }
    rewrite K. exact F.
  - intros s F. apply keys_of in F. repeat (destruct F as [<- | F]; [vm_compute; reflexivity|]). destruct F.
Qed.
Lemma reached_follow g s t : can_follow g s t -> reached g s.
Proof. intros (_ & u & v & D). exists u, (t :: v). exact D. Qed.
Lemma ex_behind g o : behind ex_prog ex_units ex_unit g o -> (g = ex_unit /\ o = None) \/ (g = ex_item /\ (o = None \/ o = Some (Some 101))).
Proof.
  assert (CI : forall g s h, ex_units g -> ex_units h -> find g s <> None -> p_call ex_prog s = Some (g_root h) -> g = ex_unit /\ s = 40 /\ h = ex_item).
  { intros g0 s h AG AH FN CA. cbn [p_call ex_prog mk] in CA. destruct (Nat.eqb_spec s 40) as [-> | N]; [|discriminate]. injection CA as CA.
    destruct AG as [-> | ->]; [|exfalso; apply FN; reflexivity]. destruct AH as [-> | ->]; [discriminate|auto]. }
  intros B. induction B as [|g s h t AG AH FN CA CF|g s h o before after AG AH FN CA D DA B IH].
  - left. auto.
  - destruct (CI _ _ _ AG AH FN CA) as (-> & -> & ->). right. split; [reflexivity|]. right. pose proof (reached_follow _ _ _ CF) as RE.
    destruct (tables_say ex_unit 40 ex_ok1 RE) as (_ & TS); [cbn; tauto|]. pose proof (proj1 (TS t) CF) as CF2. vm_compute in CF2. destruct CF2 as [<- | []]. reflexivity.
  - destruct (CI _ _ _ AG AH FN CA) as (-> & -> & ->). right. split; [reflexivity|]. left. destruct IH as [(_ & ->) | (Q & _)]; [reflexivity|discriminate].
Qed.
(** A list at the end of a unit. *)
Lemma list_ends_with_data {E} (P : prog E) g s a b : compiled P g -> compiled_b g = true -> find g s = Some (PLook a b) -> find g a = Some PEpsilon -> In b (g_nterms g) ->
  (exists v1, p_lahs P s = ([], v1)) -> table g (fun t => t_null t b) false = false -> reached g s -> ends_with_data g s.
Proof.
  intros C CB F FE NB V0 N RE a' b' F'. rewrite F in F'. injection F' as <- <-. left. split; [exact FE|]. split.
  - intros t NT. destruct (sets_exact0 P g s a b C RE F) as (v0 & v1 & PL & X0 & _). apply X0 in NT. destruct V0 as (v & V0). rewrite PL in V0. injection V0 as -> _. destruct NT.
  - intros CE. apply (proj1 (tables_say g b CB ltac:(destruct RE as (u & v & D); exists u, v; eapply derives_expand with (rhs := [b]); [unfold rhss_of; rewrite F; right; left; reflexivity|exact D]) NB)) in CE. congruence.
Qed.
(** The own productions of a unit are among [l] if that is closed. *)
Definition own_b {E} (P : prog E) (g : grammar) (l : list sym) : bool :=
  mem (g_root g) l && forallb (fun s => match p_call P s with None => forallb (forallb (fun c => mem c l)) (rhss_of g s) | Some _ => true end) l.
Lemma own_in {E} (P : prog E) g l s : own_b P g l = true -> own P g s -> In s l.
Proof.
  intros H O. unfold own_b in H. apply andb_true_iff in H. destruct H as (HR & H). rewrite forallb_forall in H. induction O as [|s rhs c O IH NC A IC]; [apply mem_In; exact HR|].
  specialize (H s IH). rewrite NC in H. rewrite forallb_forall in H. apply alternative_iff in A. specialize (H rhs A). rewrite forallb_forall in H. apply mem_In. apply H. exact IC.
Qed.
Lemma ex_ends_with_data g s a b : ex_units g -> own ex_prog g s -> find g s = Some (PLook a b) -> can_be_last g s ->
  ends_with_data g s /\ list_look g s /\ (g = ex_unit /\ s = 2 \/ g = ex_item /\ s = 24).
Proof.
  intros AG OW F CB. assert (RE : reached g s) by (destruct CB as (u & v & D & _); exists u, v; exact D). destruct AG as [-> | ->].
  - apply (own_in ex_prog ex_unit [0; 9; 1; 2; 3; 4; 40]) in OW; [|reflexivity]. repeat (destruct OW as [<- | OW]; [try discriminate F|]); [|destruct OW]. injection F as <- <-.
    split; [|split; [exists 1; reflexivity|auto]]. apply (list_ends_with_data ex_prog ex_unit 2 3 4 ex_compiled1 ex_ok1 eq_refl eq_refl); [cbn; tauto|eexists; vm_compute; reflexivity|vm_compute; reflexivity|exact RE].
  - apply (own_in ex_prog ex_item [20; 21; 22; 23; 24; 25; 26; 27]) in OW; [|reflexivity]. repeat (destruct OW as [<- | OW]; [try discriminate F|]); [|destruct OW]. injection F as <- <-.
    split; [|split; [exists 23; reflexivity|auto]]. apply (list_ends_with_data ex_prog ex_item 24 25 26 ex_compiled2 ex_ok2 eq_refl eq_refl); [cbn; tauto|eexists; vm_compute; reflexivity|vm_compute; reflexivity|exact RE].
Qed.
Lemma ex_expected : (forall t, expected ex_unit 2 t -> t = 41) /\ (forall t, expected ex_item 24 t -> t = 27).
Proof.
  split; intros t EX.
  - destruct (expected_in ex_prog ex_unit 2 t ex_compiled1 EX) as (IT & _). vm_compute in IT. destruct IT as [<- | []]. reflexivity.
  - destruct (expected_in ex_prog ex_item 24 t ex_compiled2 EX) as (IT & _). vm_compute in IT. destruct IT as [<- | []]. reflexivity.
Qed.
Definition ex_phi (s : sym) : sym := s + 20.
Example ex_units_ok : units ex_prog ex_units ex_unit.
Proof.
  split.
  - left. reflexivity.
  - intros g [-> | ->]; [exact ex_compiled1|exact ex_compiled2].
  - intros g [-> | ->]; (apply plain_ok; reflexivity).
  - intros g [-> | ->]; [apply (lits_ok _ _ ex_compiled1)|apply (lits_ok _ _ ex_compiled2)]; vm_compute; reflexivity.
  - intros g s r AG FN CA. cbn [p_call ex_prog mk] in CA. destruct (Nat.eqb_spec s 40) as [-> | N]; [|discriminate]. injection CA as <-.
    destruct AG as [-> | ->]; [|exfalso; apply FN; reflexivity]. exists ex_item. split; [right; reflexivity|]. split; [reflexivity|].
    apply (copy_tokens ex_unit ex_item ex_phi); [|reflexivity]. intros s p F. apply find_in in F. repeat (destruct F as [Q | F]; [injection Q as <- <-; reflexivity|]). destruct F.
  - intros g s a b o AG OW F CB B. destruct (ex_ends_with_data g s a b AG OW F CB) as (X & Y & Z). split; [exact X|]. split; [exact Y|].
    apply ex_behind in B. destruct B as [(_ & Q) | (-> & [Q | Q])]; try discriminate. injection Q as ->. exists 101. split; [reflexivity|]. destruct Z as [(Q & _) | (_ & ->)]; [discriminate|].
    exists [35]%Z. split; [reflexivity|]. split; [discriminate|]. intros t p' l' w' EX FP TI KD. apply (proj2 ex_expected) in EX. subst t. injection FP as <-. injection TI as <-. injection KD as <-.
    split; intros (u & Q); discriminate.
Qed.
Example ex_runs : seen_of (parse ex_prog ex_input 10 0 (start [1; 0; 2] [])) = Parsed 7 [[33]; [35]; [49]; [120]; [120]; [35]; [50]]%Z.
Proof. vm_compute. reflexivity. Qed.
Example ex_parsed : parsed ex_prog ex_input None 0 [] 0 [[33]; [35]; [49]; [120]; [120]; [35]; [50]]%Z 7.
Proof.
  apply (C74_sound ex_prog ex_input (fun _ => False) 10 0 [] [1; 0; 2]); [apply mk_leaf_ok|apply no_size_zone; reflexivity| |exact ex_runs].
  intros l U. cbn [p_inuse p_kind ex_prog mk] in *. destruct (Nat.eqb l 101); [exists [35]%Z|destruct (Nat.eqb l 102); [discriminate|exists [120]%Z]]; (split; [reflexivity|discriminate]).
Qed.
Lemma not_nul g s : Nul g s -> find g s <> Some PEpsilon -> exists rhs, In rhs (rhss_of g s) /\ NulL g rhs.
Proof. intros N F. inversion N; subst; [congruence|eauto]. Qed.
Example ex_ends : ends_at ex_prog ex_input ex_units ex_unit 7.
Proof.
  intros g s a b AG OW F CB _. destruct (ex_ends_with_data g s a b AG OW F CB) as (X & Y & Z). split; [exact X|]. right. split; [exact Y|].
  intros t p l w EX FP TI KD (u & Q). destruct Z as [(-> & ->) | (-> & ->)].
  - apply (proj1 ex_expected) in EX. subst t. injection FP as <-. injection TI as <-. injection KD as <-. discriminate.
  - apply (proj2 ex_expected) in EX. subst t. injection FP as <-. injection TI as <-. injection KD as <-. discriminate.
Qed.
Example ex_complete : exists M, forall m sched, M <= m -> seen_of (parse ex_prog ex_input m 0 (start sched [])) = Parsed 7 [[33]; [35]; [49]; [120]; [120]; [35]; [50]]%Z.
Proof.
  apply (C75_complete ex_prog ex_input ex_units ex_unit); [apply mk_leaf_ok|reflexivity|exact ex_units_ok|exact ex_ends|exact ex_parsed].
Qed.

(** ** Limits *)
(** The parser does not find a reading although there is one, when a look-ahead production can be last but its empty alternative can also be followed by something:
    unit { a: (b"a")[]; b: (b"b")[]; } on "a". *)
Definition r1_unit : grammar :=
  mkG [(0, PSeq [1; 11]); (1, PWhile 2); (2, PLook 3 4); (3, PEpsilon); (4, PSeq [5; 2]); (5, PCtor 101);
       (11, PWhile 12); (12, PLook 13 14); (13, PEpsilon); (14, PSeq [15; 12]); (15, PCtor 102)] [0; 1; 2; 4; 11; 12; 14] 0.
Definition r1_prog : prog (list bytes) :=
  mk r1_unit r1_unit (fun _ => None) (fun l => if Nat.eqb l 101 then KBytes [97]%Z else KBytes [98]%Z) (fun _ => true) (fun _ => None) (fun _ => 0).
Lemma r1_units : units r1_prog (fun g => g = r1_unit) r1_unit.
Proof.
  assert (C : compiled r1_prog r1_unit). { apply mk_compiled. reflexivity. }
  split.
  - reflexivity.
  - intros g ->. exact C.
  - intros g ->. apply plain_ok; reflexivity.
  - intros g ->. apply lits_ok; [exact C|vm_compute; reflexivity].
  - discriminate.
  - intros g s a b o _ _ _ _ B. exfalso. remember (Some o) as oo eqn:Q. induction B; discriminate.
Qed.
Ltac field1 := eapply pd_body; [reflexivity|reflexivity|reflexivity|reflexivity|].
Theorem C75_tail_refuted : ~ (forall E (P : prog E) I all g e e' j, leaf_ok P -> i_closed I = true -> units P all g -> j = length (i_data I) ->
  parsed P I None (g_root g) e 0 e' j -> exists M, forall m sched, M <= m -> seen_of (parse P I m (g_root g) (start sched e)) = Parsed j e').
Proof.
  intros H. destruct (H (list bytes) r1_prog (mkIn [97]%Z true) (fun g => g = r1_unit) r1_unit [] [[97]%Z] 1) as (M & R).
  - apply mk_leaf_ok.
  - reflexivity.
  - exact r1_units.
  - reflexivity.
  - field1. apply bd_seq. eapply pa_cons with (j1 := 1) (e1 := [[97]]%Z); [|eapply pa_cons; [|apply pa_nil]].
    + field1. eapply bd_while; [reflexivity|reflexivity|]. eapply (it_next _ _ None 1 5 HWhile HWhile [] 0 [[97]%Z] 1); [reflexivity| |reflexivity|left; discriminate|apply it_end; exact Logic.I].
      field1. apply (bd_ctor _ _ None 5 101 [97]%Z); [apply sp_bytes; reflexivity|reflexivity].
    + field1. eapply bd_while; [reflexivity|reflexivity|]. apply it_end. exact Logic.I.
  - specialize (R (10 + M) [] ltac:(lia)). vm_compute in R. discriminate.
Qed.

(** The same literal in two fields that can both come next: the generated code tries it twice and takes the second match for an ambiguity.
    unit { switch { -> a: A; -> b: b"y"; }; } with A = unit { switch ( x ) { 1 -> c: b"x"; * -> d: b"x"; }; } on "x". *)
Definition r6_unit : grammar := mkG [(0, PLook 1 2); (1, PSwitch [6] (Some 7)); (2, PCtor 102); (6, PCtor 101); (7, PCtor 101)] [0; 1] 0.
Definition r6_prog : prog (list bytes) :=
  mk r6_unit r6_unit (fun _ => None) (fun l => if Nat.eqb l 101 then KBytes [120]%Z else KBytes [121]%Z) (fun _ => true) (fun _ => None) (fun _ => 0).
Theorem C75_same_literal_twice_refuted : exists (P : prog (list bytes)) I g, leaf_ok P /\ i_closed I = true /\ compiled P g /\ plain P g /\
  (forall s t, expected g s t -> exists p l w, find g t = Some p /\ token_id p = Some l /\ p_inuse P l = true /\ p_kind P l = KBytes w /\ w <> []) /\
  (forall l l' w w', p_kind P l = KBytes w -> p_kind P l' = KBytes w' -> w <> w' -> ~ prefix w w') /\
  (forall s a b, find g s = Some (PLook a b) -> ~ can_be_empty g a /\ ~ can_be_empty g b) /\
  parsed P I None (g_root g) [] 0 [[120]%Z] 1 /\
  forall M, seen_of (parse P I (5 + M) (g_root g) (start [] [])) = ParseError.
Proof.
  assert (C : compiled r6_prog r6_unit) by (apply mk_compiled; reflexivity).
  exists r6_prog, (mkIn [120]%Z true), r6_unit. split; [apply mk_leaf_ok|]. split; [reflexivity|]. split; [exact C|]. split; [apply plain_ok; reflexivity|]. split; [|split; [|split; [|split]]].
  - intros s t EX. destruct (expected_in _ _ s t C EX) as (IT & a & b & IP). repeat (destruct IP as [Q | IP]; [try discriminate Q|]); [|destruct IP]. injection Q as <- <- <-.
    vm_compute in IT. repeat (destruct IT as [<- | IT]; [eexists; eexists; eexists; repeat split; discriminate|]). destruct IT.
  - intros l l' w w' K K' NE (u & ->). apply NE. cbn [p_kind r6_prog mk] in K, K'. destruct (Nat.eqb l 101), (Nat.eqb l' 101); injection K as <-; injection K' as K'; destruct u; try discriminate; reflexivity.
  - intros s a b F. apply find_in in F. repeat (destruct F as [Q | F]; [try discriminate Q|]); [|destruct F]. injection Q as <- <- <-. split; intros N; apply Nul_iff in N; apply not_nul in N; try discriminate.
    + destruct N as (rhs & [<- | [<- | []]] & N); inversion N as [|? ? N1 _]; subst; apply not_nul in N1; try discriminate; destruct N1 as (rhs & [] & _).
    + destruct N as (rhs & [] & _).
  - field1. apply bd_first. field1. apply bd_default; [reflexivity|]. field1. apply (bd_ctor _ _ None 7 101 [120]%Z); [apply sp_bytes; reflexivity|reflexivity].
  - intros M. vm_compute. reflexivity.
Qed.

(** The end of a field limited by &size is taken for the end of the data by what comes behind it.
    unit { h: H &size=1; ys: (b"y")[]; : b"."; } with H = unit { : b"a"; xs: (b"x")[]; } on "a.". *)
Definition r2_h : grammar :=
  mkG [(20, PSeq [21; 22]); (21, PCtor 101); (22, PWhile 23); (23, PLook 24 25); (24, PEpsilon); (25, PSeq [26; 23]); (26, PCtor 102)] [20; 22; 23; 25] 20.
Definition r2_unit : grammar :=
  mkG [(0, PSeq [1; 2; 8]); (1, PSeq [11; 12]); (11, PCtor 101); (12, PWhile 13); (13, PLook 14 15); (14, PEpsilon); (15, PSeq [16; 13]); (16, PCtor 102);
       (2, PWhile 3); (3, PLook 4 5); (4, PEpsilon); (5, PSeq [6; 3]); (6, PCtor 103); (8, PCtor 104)] [0; 1; 12; 13; 15; 2; 3; 5] 0.
Definition r2_prog : prog (list bytes) :=
  mk r2_unit r2_h (fun s => if Nat.eqb s 1 then Some 20 else None) (fun l => if Nat.eqb l 101 then KBytes [97]%Z else if Nat.eqb l 102 then KBytes [120]%Z else if Nat.eqb l 103 then KBytes [121]%Z else KBytes [46]%Z) (fun _ => true)
     (fun s => if Nat.eqb s 1 then Some 1 else None) (fun _ => 0).
Theorem C75_size_refuted : exists (P : prog (list bytes)) I g h, leaf_ok P /\ i_closed I = true /\ compiled P g /\ compiled P h /\ distinct_literals P g /\ distinct_literals P h /\
  parsed P I None (g_root g) [] 0 [[97]%Z; [46]%Z] 2 /\
  forall M, seen_of (parse P I (8 + M) (g_root g) (start [] [])) = ParseError.
Proof.
  assert (C : compiled r2_prog r2_unit) by (apply mk_compiled; reflexivity).
  assert (C2 : compiled r2_prog r2_h).
  { apply compiled_ok; [reflexivity| |]; intros s; [intros p F|intros F].
    - cbn [p_prod r2_prog mk]. assert (IS : In s (map fst (g_prods r2_h))) by (apply keys_of; congruence). replace (find r2_unit s) with (@None prod); [exact F|].
      repeat (destruct IS as [<- | IS]; [reflexivity|]). destruct IS.
    - apply keys_of in F. repeat (destruct F as [<- | F]; [reflexivity|]). destruct F. }
  exists r2_prog, (mkIn [97; 46]%Z true), r2_unit, r2_h. split; [apply mk_leaf_ok|]. split; [reflexivity|]. split; [exact C|]. split; [exact C2|].
  split; [apply lits_ok; [exact C|vm_compute; reflexivity]|]. split; [apply lits_ok; [exact C2|vm_compute; reflexivity]|]. split.
  - field1. apply bd_seq. apply pa_cons with (e1 := [[97]]%Z) (j1 := 1).
    + eapply pd_unit; [reflexivity|reflexivity|reflexivity|split; reflexivity|]. field1. apply bd_seq. apply pa_cons with (e1 := [[97]]%Z) (j1 := 1).
      * field1. apply (bd_ctor _ _ _ 21 101 [97]%Z); [apply sp_bytes; reflexivity|reflexivity].
      * eapply pa_cons; [|apply pa_nil]. field1. eapply bd_while; [reflexivity|reflexivity|]. apply it_end. exact Logic.I.
    + apply pa_cons with (e1 := [[97]]%Z) (j1 := 1).
      * field1. eapply bd_while; [reflexivity|reflexivity|]. apply it_end. exact Logic.I.
      * eapply pa_cons; [|apply pa_nil]. field1. apply (bd_ctor _ _ None 8 104 [46]%Z); [apply sp_bytes; reflexivity|reflexivity].
  - intros M. vm_compute. reflexivity.
Qed.

Lemma ctor_inv {E} (P : prog E) I lim s l e i e' j : body P I lim s (PCtor l) e i e' j -> exists w, spelled P I lim l i w /\ p_field P s w e = Some e' /\ j = i + length w.
Proof. intros B. inversion B; subst. eauto. Qed.
Lemma spelled_inv {E} (P : prog E) I lim l i w v : spelled P I lim l i w -> p_kind P l = KBytes v \/ p_kind P l = KInt v -> v = w /\ firstn (length w) (rest_at I lim i) = w.
Proof. intros S0 K. inversion S0; subst; destruct K as [K | K]; split; congruence. Qed.
(** A look-ahead symbol found before something limited by &size is accepted inside it although it is too long: unit { xs: (b"a")[]; y: Y &size=1; } with
    Y = unit { : b"XY"; } on "XY". *)
Definition r7_unit : grammar :=
  mkG [(0, PSeq [1; 7]); (1, PWhile 2); (2, PLook 3 4); (3, PEpsilon); (4, PSeq [5; 2]); (5, PCtor 101); (7, PSeq [8]); (8, PCtor 102)] [0; 1; 2; 4; 7] 0.
Definition r7_prog : prog (list bytes) :=
  mk r7_unit r7_unit (fun _ => None) (fun l => if Nat.eqb l 101 then KBytes [97]%Z else KBytes [88; 89]%Z) (fun _ => true) (fun s => if Nat.eqb s 7 then Some 1 else None) (fun _ => 0).
Theorem C74_size_refuted : ~ (forall E (P : prog E) I m s e sched j e', leaf_ok P -> bytes_look_aheads P ->
  seen_of (parse P I m s (start sched e)) = Parsed j e' -> parsed P I None s e 0 e' j).
Proof.
  intros H. assert (R : seen_of (parse r7_prog (mkIn [88; 89]%Z true) 10 0 (start [] [])) = Parsed 1 [[88; 89]]%Z) by (vm_compute; reflexivity).
  apply H in R; [|apply mk_leaf_ok|].
  - inversion R as [? ? ? ? ? ? ? lim' PP CN CA BD B| | |? ? ? ? ? PP NB CN]; subst; try discriminate. injection PP as <-. cbn in BD. subst lim'.
    inversion B as [? ? ? ? ? ? ? PA| | | | | | | | | | | | |]; subst. inversion PA as [|? ? ? ? ? e1 j1 ? ? P1 P2]; subst. inversion P2 as [|? ? ? ? ? e2 j2 ? ? P3 P4]; subst. inversion P4; subst.
    inversion P3 as [? ? ? ? ? ? ? lim' PP CN2 CA2 BD B2| | |? ? ? ? ? PP NB CN2]; subst; try discriminate. injection PP as <-. cbn in BD. destruct BD as (-> & BJ).
    assert (j1 = 0) by lia. subst j1. inversion B2 as [? ? ? ? ? ? ? PA2| | | | | | | | | | | | |]; subst. inversion PA2 as [|? ? ? ? ? e3 j3 ? ? P5 P6]; subst. inversion P6; subst.
    inversion P5 as [? ? ? ? ? ? ? lim' PP CN3 CA3 BD B3| | |? ? ? ? ? PP NB CN3]; subst; try discriminate. injection PP as <-. cbn in BD. subst lim'.
    apply ctor_inv in B3. destruct B3 as (w & SP & _ & _). apply (spelled_inv _ _ _ _ _ _ [88; 89]%Z) in SP; [|left; reflexivity]. destruct SP as (<- & M). discriminate.
  - intros l _. cbn [p_kind r7_prog mk]. destruct (Nat.eqb l 101); eexists; (split; [reflexivity|discriminate]).
Qed.
(** Look-ahead symbols other than bytes constants are not compared with the input again: unit { xs: (uint8(1))[]; ys: (uint8(2))[n]; v: uint8; z: uint8(2); } with n = 0
    on "\x02\xaa" takes "\x02" for v and nothing at all for z. *)
Definition r3_unit : grammar :=
  mkG [(0, PSeq [1; 6; 7; 8]); (1, PWhile 2); (2, PLook 3 4); (3, PEpsilon); (4, PSeq [5; 2]); (5, PCtor 101); (6, PLoop 9); (9, PCtor 102); (7, PVar 0); (8, PCtor 102)] [0; 1; 2; 4; 6] 0.
Definition r3_prog : prog (list bytes) :=
  mk r3_unit r3_unit (fun _ => None) (fun l => if Nat.eqb l 101 then KInt [1]%Z else KInt [2]%Z) (fun _ => true) (fun _ => None) (fun _ => 0).
Theorem C74_integers_refuted : ~ (forall E (P : prog E) I m s e sched j e', leaf_ok P -> (forall s e, p_size P s e = None) ->
  seen_of (parse P I m s (start sched e)) = Parsed j e' -> parsed P I None s e 0 e' j).
Proof.
  intros H. assert (R : seen_of (parse r3_prog (mkIn [2; 170]%Z true) 10 0 (start [] [])) = Parsed 1 [[2]; []]%Z) by (vm_compute; reflexivity).
  apply H in R; [|apply mk_leaf_ok|reflexivity].
  inversion R as [? ? ? ? ? ? ? lim' PP CN CA BD B| | |? ? ? ? ? PP NB CN]; subst; try discriminate. injection PP as <-. cbn in BD. subst lim'.
  inversion B as [? ? ? ? ? ? ? PA| | | | | | | | | | | | |]; subst. inversion PA as [|? ? ? ? ? e1 j1 ? ? P1 PA1]; subst. inversion PA1 as [|? ? ? ? ? e2 j2 ? ? P2 PA2]; subst.
  inversion PA2 as [|? ? ? ? ? e3 j3 ? ? P3 PA3]; subst. inversion PA3 as [|? ? ? ? ? e4 j4 ? ? P4 PA4]; subst. inversion PA4; subst.
  inversion P4 as [? ? ? ? ? ? ? lim' PP CN2 CA2 BD B2| | |? ? ? ? ? PP NB CN2]; subst; try discriminate. injection PP as <-. cbn in BD. subst lim'.
  apply ctor_inv in B2. destruct B2 as (w & SP & FI & _). apply (spelled_inv _ _ _ _ _ _ [2]%Z) in SP; [|right; reflexivity]. destruct SP as (<- & _).
  cbn [p_field r3_prog mk] in FI. injection FI as FI. apply (f_equal (fun l => last l [])) in FI. rewrite last_last in FI. discriminate.
Qed.

(** Look-ahead is computed as if every field were there and every counted loop had exactly one element.
    unit { xs: (b"a")[]; ys: (b"b")[n]; : b"a"; } with n = 0 on "a". *)
Definition r8_unit : grammar :=
  mkG [(0, PSeq [1; 6; 8]); (1, PWhile 2); (2, PLook 3 4); (3, PEpsilon); (4, PSeq [5; 2]); (5, PCtor 101); (6, PLoop 7); (7, PCtor 102); (8, PCtor 101)] [0; 1; 2; 4; 6] 0.
Definition r8_prog : prog (list bytes) :=
  mk r8_unit r8_unit (fun _ => None) (fun l => if Nat.eqb l 101 then KBytes [97]%Z else KBytes [98]%Z) (fun _ => true) (fun _ => None) (fun _ => 0).
Theorem C75_loop_refuted : exists (P : prog (list bytes)) I g, leaf_ok P /\ i_closed I = true /\ compiled P g /\ distinct_literals P g /\
  parsed P I None (g_root g) [] 0 [[97]%Z] (length (i_data I)) /\ forall M, seen_of (parse P I (8 + M) (g_root g) (start [] [])) = ParseError.
Proof.
  assert (C : compiled r8_prog r8_unit) by (apply mk_compiled; vm_compute; reflexivity).
  exists r8_prog, (mkIn [97]%Z true), r8_unit. split; [apply mk_leaf_ok|]. split; [reflexivity|]. split; [exact C|]. split; [apply lits_ok; [exact C|vm_compute; reflexivity]|]. split.
  - field1. apply bd_seq. apply pa_cons with (e1 := []) (j1 := 0); [|apply pa_cons with (e1 := []) (j1 := 0); [|eapply pa_cons; [|apply pa_nil]]].
    + field1. eapply bd_while; [reflexivity|reflexivity|]. apply it_end. exact Logic.I.
    + field1. eapply bd_count; [reflexivity|]. apply it_end. reflexivity.
    + field1. apply (bd_ctor _ _ None 8 101 [97]%Z); [apply sp_bytes; reflexivity|reflexivity].
  - intros M. vm_compute. reflexivity.
Qed.
(** unit { xs: (b"a")[]; y: b"b" if ( False ); : b"a"; } on "a". *)
Definition r9_unit : grammar :=
  mkG [(0, PSeq [1; 7; 8]); (1, PWhile 2); (2, PLook 3 4); (3, PEpsilon); (4, PSeq [5; 2]); (5, PCtor 101); (7, PCtor 102); (8, PCtor 101)] [0; 1; 2; 4] 0.
Definition r9_prog : prog (list bytes) :=
  mkProg (list bytes) (find r9_unit) (lahs_of r9_unit) (fun _ => None) (fun _ => DNone) (fun l => if Nat.eqb l 101 then KBytes [97]%Z else KBytes [98]%Z) (fun _ => true)
    (fun _ _ _ => RNone) (fun _ _ => one_byte) (fun s _ => negb (Nat.eqb s 7)) (fun s _ => None) (fun _ _ => None) (fun s => LCount (fun _ => 0)) (fun _ w e => Some (e ++ [w])) (fun _ e => Some (e, false)).
Theorem C75_condition_refuted : exists (P : prog (list bytes)) I g, leaf_ok P /\ i_closed I = true /\ compiled P g /\ distinct_literals P g /\
  parsed P I None (g_root g) [] 0 [[97]%Z] (length (i_data I)) /\ forall M, seen_of (parse P I (8 + M) (g_root g) (start [] [])) = ParseError.
Proof.
  assert (C : compiled r9_prog r9_unit) by (apply compiled_ok; [vm_compute; reflexivity|intros s p F; exact F|reflexivity]).
  exists r9_prog, (mkIn [97]%Z true), r9_unit. split; [destruct (mk_leaf_ok r9_unit r9_unit (fun _ => None) (fun _ => KRegexp) (fun _ => true) (fun _ => None) (fun _ => 0)) as [L1 L2 L3 L4]; split; [exact L1|exact L2|exact L3|exact L4]|]. split; [reflexivity|]. split; [exact C|].
  split; [apply lits_ok; [exact C|vm_compute; reflexivity]|]. split.
  - field1. apply bd_seq. apply pa_cons with (e1 := []) (j1 := 0); [|apply pa_cons with (e1 := []) (j1 := 0); [|eapply pa_cons; [|apply pa_nil]]].
    + field1. eapply bd_while; [reflexivity|reflexivity|]. apply it_end. exact Logic.I.
    + eapply pd_absent; [reflexivity|discriminate|reflexivity].
    + field1. apply (bd_ctor _ _ None 8 101 [97]%Z); [apply sp_bytes; reflexivity|reflexivity].
  - intros M. vm_compute. reflexivity.
Qed.
(** What comes behind a unit that ends with a list can be confused with an element of the list if it is not a literal: unit { y: Y; v: uint8; } with
    Y = unit { xs: (b"a")[]; } on "a". *)
Definition r10_y : grammar := mkG [(20, PSeq [21]); (21, PWhile 22); (22, PLook 23 24); (23, PEpsilon); (24, PSeq [25; 22]); (25, PCtor 101)] [20; 21; 22; 24] 20.
Definition r10_unit : grammar :=
  mkG [(0, PSeq [40; 1]); (1, PVar 0); (40, PSeq [41]); (41, PWhile 42); (42, PLook 43 44); (43, PEpsilon); (44, PSeq [45; 42]); (45, PCtor 101)] [0; 40; 41; 42; 44] 0.
Definition r10_prog : prog (list bytes) :=
  mk r10_unit r10_y (fun s => if Nat.eqb s 40 then Some 20 else None) (fun _ => KBytes [97]%Z) (fun _ => true) (fun _ => None) (fun _ => 0).
Theorem C75_behind_refuted : exists (P : prog (list bytes)) I g h, leaf_ok P /\ i_closed I = true /\ compiled P g /\ compiled P h /\ distinct_literals P h /\ plain P g /\ plain P h /\
  parsed P I None (g_root g) [] 0 [[97]%Z] (length (i_data I)) /\ forall M, seen_of (parse P I (8 + M) (g_root g) (start [] [])) = ParseError.
Proof.
  assert (C : compiled r10_prog r10_unit) by (apply mk_compiled; vm_compute; reflexivity).
  assert (C2 : compiled r10_prog r10_y).
  { apply compiled_ok; [vm_compute; reflexivity| |]; intros s; [intros p F|intros F].
    - cbn [p_prod r10_prog mk]. assert (IS : In s (map fst (g_prods r10_y))) by (apply keys_of; congruence). replace (find r10_unit s) with (@None prod); [exact F|].
      repeat (destruct IS as [<- | IS]; [reflexivity|]). destruct IS.
    - apply keys_of in F. repeat (destruct F as [<- | F]; [vm_compute; reflexivity|]). destruct F. }
  exists r10_prog, (mkIn [97]%Z true), r10_unit, r10_y. split; [apply mk_leaf_ok|]. split; [reflexivity|]. split; [exact C|]. split; [exact C2|].
  split; [apply lits_ok; [exact C2|vm_compute; reflexivity]|]. split; [apply plain_ok; reflexivity|]. split; [apply plain_ok; reflexivity|]. split.
  - field1. apply bd_seq. apply pa_cons with (e1 := []) (j1 := 0); [|eapply pa_cons; [|apply pa_nil]].
    + eapply pd_unit; [reflexivity|reflexivity|reflexivity|reflexivity|]. field1. apply bd_seq. eapply pa_cons; [|apply pa_nil].
      field1. eapply bd_while; [reflexivity|reflexivity|]. apply it_end. exact Logic.I.
    + field1. apply (bd_var _ _ None 1 0 1); reflexivity.
  - intros M. vm_compute. reflexivity.
Qed.
