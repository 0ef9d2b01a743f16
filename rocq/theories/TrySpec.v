(** Specification of backtracking, from doc/programming/parsing.rst:1780-1830. *)
From Verif Require Import Base SyncModel TryModel.

(** Outcome: parsed up to an offset; an exception.  With what has been parsed on the way. *)
Inductive dout := DOk (p : nat) (tr : list tev) | DExn (e : exn) (tr : list tev).

(** The documented meaning, without look-ahead and without any notion of trimming. *)
Inductive doc_body : body -> nat -> list tev -> dout -> Prop :=
| d_leaf l p tr q l' e e' : l p SNone e = LOk q l' e' -> doc_body (BLeaf l) p tr (DOk q (TParsed p q :: tr))
| d_leaf_fail l p tr e : l p SNone e = LFail -> doc_body (BLeaf l) p tr (DExn XParse (TFailed p :: tr))
| d_leaf_other l p tr e : l p SNone e = LOther -> doc_body (BLeaf l) p tr (DExn XOther tr)
| d_unit fs err p tr q tr' : doc_fields fs p tr (DOk q tr') -> doc_body (BUnit fs err) p tr (DOk q tr')
(** a unit's %error hook runs after errors; it may backtrack *)
| d_unit_err fs err p tr e tr' : doc_fields fs p tr (DExn e tr') -> err tr' = ANone -> doc_body (BUnit fs err) p tr (DExn e tr')
| d_unit_err' fs err p tr e tr' e' : doc_fields fs p tr (DExn e tr') -> exn_of (err tr') = Some e' -> doc_body (BUnit fs err) p tr (DExn e' tr')
(** a field: its value, then its hook *)
with doc_field : thook -> body -> nat -> list tev -> dout -> Prop :=
| d_field h b p tr q tr' : doc_body b p tr (DOk q tr') -> h tr' = ANone -> doc_field h b p tr (DOk q tr')
| d_field_hook h b p tr q tr' e : doc_body b p tr (DOk q tr') -> exn_of (h tr') = Some e -> doc_field h b p tr (DExn e tr')
| d_field_exn h b p tr e tr' : doc_body b p tr (DExn e tr') -> doc_field h b p tr (DExn e tr')
with doc_fields : fields -> nat -> list tev -> dout -> Prop :=
| d_nil p tr : doc_fields FNil p tr (DOk p tr)
| d_cons t h err b fs p tr q tr' r : doc_field h b p tr (DOk q tr') -> doc_fields fs q tr' r -> doc_fields (FCons t h err b fs) p tr r
(** "will immediately transfer control over to the field following the &try ... the data position inside the input stream will be reset to
    where it was when the &try field started its processing" *)
| d_try h err b fs p tr tr' r : doc_field h b p tr (DExn XBack tr') -> doc_fields fs p (TBack p :: tr') r -> doc_fields (FCons true h err b fs) p tr r
| d_cons_exn (t : bool) h err b fs p tr e tr' :
    doc_field h b p tr (DExn e tr') -> (t = true -> e <> XBack) -> err tr' = ANone -> doc_fields (FCons t h err b fs) p tr (DExn e tr')
| d_cons_exn' (t : bool) h err b fs p tr e tr' e' :
    doc_field h b p tr (DExn e tr') -> (t = true -> e <> XBack) -> exn_of (err tr') = Some e' -> (t = true -> e' <> XBack) ->
    doc_fields (FCons t h err b fs) p tr (DExn e' tr')
(** "backtrack() can be called from inside %error hooks" *)
| d_try_err h err b fs p tr e tr' r :
    doc_field h b p tr (DExn e tr') -> e <> XBack -> err tr' = ABack -> doc_fields fs p (TBack p :: tr') r ->
    doc_fields (FCons true h err b fs) p tr r.

(** Atomic parsers that go forward, and neither need nor leave a look-ahead. *)
Definition tidy_leaf (l : leafp) : Prop :=
  forall p e e', l p SNone e = l p SNone e' /\ match l p SNone e with LOk q l' _ => p <= q /\ l' = SNone | _ => True end.
(** Such atomic parsers only; no error recovery; the %error hook of a field with &try does not backtrack itself. *)
Fixpoint tidy_body (b : body) : Prop :=
  match b with BLeaf l => tidy_leaf l | BUnit fs _ => tidy_fields fs | BSync _ _ _ => False end
with tidy_fields (fs : fields) : Prop :=
  match fs with FNil => True | FCons t _ err b fs' => (t = true -> forall tr, err tr <> ABack) /\ tidy_body b /\ tidy_fields fs' end.

Definition observed (r : tres) : dout := match r with TDone s => DOk (t_pos s) (t_tr s) | TExn e s => DExn e (t_tr s) end.

(** Without the &try. *)
Fixpoint no_try_body (b : body) : body :=
  match b with BLeaf l => BLeaf l | BUnit fs err => BUnit (no_try fs) err | BSync fs s rest => BSync (no_try fs) s (no_try rest) end
with no_try (fs : fields) : fields :=
  match fs with FNil => FNil | FCons _ h err b fs' => FCons false h err (no_try_body b) (no_try fs') end.
Definition tr_of (r : dout) : list tev := match r with DOk _ tr => tr | DExn _ tr => tr end.

(** All atomic parsers go forward, with or without look-ahead; no error recovery. *)
Fixpoint forward_body (b : body) : Prop :=
  match b with BLeaf l => forall p a e q l' e', l p a e = LOk q l' e' -> p <= q | BUnit fs _ => forward_fields fs | BSync _ _ _ => False end
with forward_fields (fs : fields) : Prop :=
  match fs with FNil => True | FCons _ _ _ b fs' => forward_body b /\ forward_fields fs' end.
