(** One parsing state. *)
From Verif Require Import Base DriverModel DriverSpec.

Lemma nonempty_app a b : nonempty (a ++ b) = nonempty a ++ nonempty b.
Proof. apply filter_app. Qed.
Lemma pieces_app a b : pieces (a ++ b) = pieces a ++ pieces b.
Proof. apply flat_map_app. Qed.
Lemma ended_app a b : ended (a ++ b) = ended a || ended b.
Proof. apply existsb_app. Qed.
Lemma calls_app i a b : calls_of i (a ++ b) = calls_of i a ++ calls_of i b.
Proof. apply flat_map_app. Qed.
Lemma stream_calls_length l : length (stream_calls l) = length l.
Proof. unfold stream_calls. rewrite map_length, seq_length. reflexivity. Qed.
Lemma stream_calls_app l i : stream_calls (l ++ [i]) = stream_calls l ++ [(nonempty (pieces (l ++ [i])), ended (l ++ [i]))].
Proof.
  unfold stream_calls. rewrite app_length. cbn [length]. rewrite seq_app, map_app. cbn [seq map]. f_equal.
  - apply map_ext_in. intros j J. apply in_seq in J. rewrite firstn_app. replace (j - length l)%nat with 0%nat by lia. cbn [firstn]. rewrite app_nil_r. reflexivity.
  - rewrite (firstn_all2 (n := 1 + length l) (l ++ [i])) by (rewrite app_length; cbn [length]; lia). reflexivity.
Qed.
Lemma block_calls_app l i : block_calls (l ++ [i]) = block_calls l ++ match i with Piece p => [(nonempty [p], true)] | EndOfData => [] end.
Proof. unfold block_calls. rewrite pieces_app, map_app. destruct i; reflexivity. Qed.

Lemma fed_length l calls : fed Stream l calls -> (length calls <= length l)%nat.
Proof.
  intros (F & _). apply (f_equal (@length _)) in F. rewrite map_length, firstn_length, stream_calls_length in F. lia.
Qed.
Lemma removelast_snoc {A} (l : list A) x : removelast (l ++ [x]) = l.
Proof. rewrite removelast_app by discriminate. cbn [removelast]. apply app_nil_r. Qed.
Lemma fed_more l calls i a : fed Stream l calls -> length calls = length l -> (forall c, In c calls -> snd c = Yields) ->
  fed Stream (l ++ [i]) (calls ++ [(nonempty (pieces (l ++ [i])), ended (l ++ [i]), a)]).
Proof.
  intros (F & G & H) L Y. unfold fed. rewrite stream_calls_app, map_app, app_length, removelast_snoc. cbn [map fst length]. split; [|split].
  - rewrite firstn_all2 by (rewrite app_length, stream_calls_length; cbn [length]; lia). rewrite F.
    rewrite firstn_all2 by (rewrite stream_calls_length; lia). reflexivity.
  - exact Y.
  - left. rewrite app_length. cbn [length]. lia.
Qed.
Lemma fed_ignored l calls i : fed Stream l calls -> (exists front c, calls = front ++ [c] /\ snd c <> Yields) -> fed Stream (l ++ [i]) calls.
Proof.
  intros FD E. pose proof (fed_length _ _ FD) as L. destruct FD as (F & G & H). unfold fed. split; [|split; [exact G|right; exact E]].
  rewrite stream_calls_app, firstn_app, stream_calls_length. replace (length calls - length l)%nat with 0%nat by lia. cbn [firstn]. rewrite app_nil_r. exact F.
Qed.

Definition owned (i : list (piece * bool)) : Prop := Forall (fun x => snd x = true) i.
(** How a state relates to what it got. *)
Definition st_ok (s : pstate) (t : ptype) (l : list input) (calls : list (list piece * bool * answer)) : Prop :=
  s_type s = t /\ (exists p, s_parser s = Some p /\ p_parse1 p = true) /\ s_skip s = false /\
  (t = Stream ->
   if s_done s then exists front c, calls = front ++ [c] /\ snd c <> Yields
   else length calls = length l /\ (forall c, In c calls -> snd c = Yields) /\ ended l = false /\
        match s_input s with
        | None => l = []
        | Some i => nonempty (map fst i) = nonempty (pieces l) /\ owned i
        end).
Lemma owned_make i : owned (make_owning i).
Proof. unfold owned, make_owning. apply Forall_forall. intros x X. apply in_map_iff in X. destruct X as (y & <- & _). reflexivity. Qed.
Lemma fst_make i : map fst (make_owning i) = map fst i.
Proof. unfold make_owning. rewrite map_map. reflexivity. Qed.

Definition input_piece (i : input) : piece := match i with Piece p => p | EndOfData => Data [] end.
Definition input_eod (i : input) : bool := match i with Piece _ => false | EndOfData => true end.
Definition give (o : oracle) (inst : nat) (s : pstate) (tr : list event) (i : input) : pres :=
  match i with Piece p => process o inst s tr p | EndOfData => finish o inst s tr end.
(** What comes out. *)
Definition gave (inst : nat) (t : ptype) (l : list input) (i : input) (tr : list event) (s' : pstate) (tr' : list event) : Prop :=
  (exists ev, tr' = tr ++ ev /\ Forall memory_ok ev /\ forall j, j <> inst -> calls_of j ev = []) /\
  st_ok s' t (l ++ [i]) (calls_of inst tr') /\ fed t (l ++ [i]) (calls_of inst tr').

Lemma calls_one inst j inp fr cur a : calls_of j [ECall inst inp fr cur a] = if Nat.eqb inst j then [(nonempty (map fst inp), fr, a)] else [].
Proof. cbn [calls_of flat_map]. rewrite app_nil_r. reflexivity. Qed.
Lemma calls_other inst j inp fr cur a : j <> inst -> calls_of j [ECall inst inp fr cur a] = [].
Proof. intros N. rewrite calls_one. apply not_eq_sym, Nat.eqb_neq in N. rewrite N. reflexivity. Qed.
Lemma snoc_exists {A} (P : A -> Prop) (l : list A) x : P x -> exists f c, l ++ [x] = f ++ [c] /\ P c.
Proof. intros H. exists l, x. auto. Qed.

Lemma give_ok o inst s tr t l i : st_ok s t l (calls_of inst tr) -> fed t l (calls_of inst tr) ->
  match give o inst s tr i with
  | PDone s' tr' | PContinue s' tr' | PThrow s' tr' => gave inst t l i tr s' tr'
  | PTerminate => exists inp, o tr inst inp true = Yields
  | PNull => False
  end.
Proof.
  intros (T & (par & P & P1) & SK & ST) FD. destruct t.
  - (* stream *)
    specialize (ST eq_refl).
    assert (E : give o inst s tr i = process_ o inst s tr (input_piece i) (input_eod i)) by (destruct i; unfold give, process, finish; rewrite ?T; reflexivity).
    rewrite E. unfold process_. rewrite P, SK, T. destruct (s_done s) eqn:D.
    + split; [exists []; rewrite app_nil_r; repeat split; constructor|]. split; [|apply fed_ignored; assumption].
      unfold st_ok. rewrite T, SK, D. split; [reflexivity|]. split; [exists par; auto|]. split; [reflexivity|]. intros _. exact ST.
    + destruct ST as (LEN & Y & NE & INP).
      assert (KEY : forall inp a s', nonempty (map fst inp) = nonempty (pieces (l ++ [i])) -> o tr inst inp (input_eod i) = a ->
        (exists old, Forall (fun x => snd x = true) old /\ (inp = old \/ inp = old ++ [(input_piece i, false)])) ->
        s_type s' = Stream -> s_parser s' = s_parser s -> s_skip s' = false ->
        (if s_done s' then a <> Yields else a = Yields /\ input_eod i = false /\ exists inp', s_input s' = Some inp' /\ map fst inp' = map fst inp /\ owned inp') ->
        gave inst Stream l i tr s' (tr ++ [ECall inst inp (input_eod i) (input_piece i) a])).
      { intros inp a s' C A M T' P' SK' D'. assert (EN : input_eod i = ended (l ++ [i])) by (rewrite ended_app, NE; destruct i; reflexivity).
        split; [|split].
        - eexists. split; [reflexivity|]. split; [constructor; [exact M|constructor]|]. intros j J. apply calls_other. exact J.
        - rewrite calls_app, calls_one, Nat.eqb_refl. unfold st_ok. split; [exact T'|]. split; [exists par; rewrite P'; auto|]. split; [exact SK'|]. intros _.
          destruct (s_done s').
          + apply (snoc_exists (fun c : list piece * bool * answer => snd c <> Yields)). exact D'.
          + destruct D' as (AY & EO & inp' & I1 & I2 & I3). rewrite !app_length. cbn [length]. split; [lia|]. split; [|split].
            * intros c IC. apply in_app_or in IC. destruct IC as [IC|[<-|[]]]; [apply Y; exact IC|exact AY].
            * rewrite <- EN. exact EO.
            * rewrite I1, I2. split; [exact C|exact I3].
        - rewrite calls_app, calls_one, Nat.eqb_refl, C, EN. apply fed_more; assumption. }
      destruct (s_input s) as [inp|] eqn:SI.
      * destruct INP as (C & OW). set (inp1 := if Nat.eqb (size_of (input_piece i)) 0 then inp else inp ++ [(input_piece i, false)]).
        assert (C1 : nonempty (map fst inp1) = nonempty (pieces (l ++ [i]))).
        { rewrite pieces_app, nonempty_app, <- C. unfold inp1. destruct (Nat.eqb (size_of (input_piece i)) 0) eqn:Z.
          - destruct i as [p|]; cbn [input_piece] in Z; cbn [pieces flat_map nonempty filter]; [rewrite app_nil_r; cbn [filter]; rewrite Z; cbn [negb]|]; rewrite app_nil_r; reflexivity.
          - rewrite map_app, nonempty_app. f_equal. destruct i as [p|]; [|discriminate]. reflexivity. }
        assert (M1 : exists old, Forall (fun x => snd x = true) old /\ (inp1 = old \/ inp1 = old ++ [(input_piece i, false)])).
        { exists inp. split; [exact OW|]. unfold inp1. destruct (Nat.eqb _ 0); auto. }
        unfold ask. cbn [fst snd]. destruct (o tr inst inp1 (input_eod i)) as [|off|] eqn:A.
        -- destruct (input_eod i) eqn:EO; [exists inp1; exact A|]. apply (KEY inp1 Yields); rewrite ?EO; auto.
           cbn [s_done set_res set_input s_input]. rewrite D. split; [reflexivity|]. split; [reflexivity|]. exists (make_owning inp1). split; [reflexivity|]. split; [apply fst_make|apply owned_make].
        -- apply (KEY inp1 (Finishes off)); auto. cbn [s_done set_done]. discriminate.
        -- apply (KEY inp1 Throws); auto. cbn [s_done set_done]. discriminate.
      * subst l. rewrite P1. cbn [negb]. set (inp1 := [(input_piece i, false)]).
        assert (C1 : nonempty (map fst inp1) = nonempty (pieces ([] ++ [i]))) by (destruct i; reflexivity).
        assert (M1 : exists old, Forall (fun x => snd x = true) old /\ (inp1 = old \/ inp1 = old ++ [(input_piece i, false)])).
        { exists []. split; [constructor|]. right. reflexivity. }
        unfold ask. cbn [fst snd]. destruct (o tr inst inp1 (input_eod i)) as [|off|] eqn:A.
        -- destruct (input_eod i) eqn:EO; [exists inp1; exact A|]. apply (KEY inp1 Yields); rewrite ?EO; auto.
           cbn [s_done set_res set_input s_input]. rewrite D. split; [reflexivity|]. split; [reflexivity|]. exists (make_owning inp1). split; [reflexivity|]. split; [apply fst_make|apply owned_make].
        -- apply (KEY inp1 (Finishes off)); auto. cbn [s_done set_done]. discriminate.
        -- apply (KEY inp1 Throws); auto. cbn [s_done set_done]. discriminate.
  - (* block *)
    destruct i as [p|]; unfold give.
    + unfold process, process_. rewrite P, SK, T, P1. cbn [negb andb]. rewrite andb_false_r. unfold ask. cbn [fst snd].
      assert (KEY : forall a s', s_type s' = Block -> s_parser s' = s_parser s -> s_skip s' = false ->
        gave inst Block l (Piece p) tr s' (tr ++ [ECall inst [(p, false)] true p a])).
      { intros a s' T' P' SK'. split; [|split].
        - eexists. split; [reflexivity|]. split; [|intros j J; apply calls_other; exact J]. constructor; [|constructor]. exists []. split; [constructor|]. right. reflexivity.
        - split; [exact T'|]. split; [exists par; rewrite P'; auto|]. split; [exact SK'|]. discriminate.
        - unfold fed in *. rewrite calls_app, calls_one, Nat.eqb_refl, block_calls_app, map_app, FD. reflexivity. }
      destruct (o tr inst [(p, false)] true) as [|off|] eqn:A; [exists [(p, false)]; exact A| |]; apply KEY; auto.
    + unfold finish. rewrite T. split; [exists []; rewrite app_nil_r; repeat split; constructor|]. split.
      * split; [exact T|]. split; [exists par; auto|]. split; [exact SK|]. discriminate.
      * unfold fed in *. rewrite block_calls_app, app_nil_r. exact FD.
Qed.
