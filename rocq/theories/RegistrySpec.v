(** Which parsers are available under which name, for C23 and C58. *)
From Verif Require Import Base StrModel MimeModel PortModel RegistryModel.

(** Names given by one port specification: the port with its direction, and for both directions also the bare port. *)
Definition port_names (x : port * direction) : list bytes :=
  let t := port_print (fst x) in
  match snd x with
  | DOrig => [t ++ [37; 111; 114; 105; 103]]
  | DResp => [t ++ [37; 114; 101; 115; 112]]
  | DBoth => [t; t ++ [37; 111; 114; 105; 103]; t ++ [37; 114; 101; 115; 112]]
  | DUndef => []
  end%Z.

(** Name given by a MIME type without wildcard: main/sub. *)
Definition mime_names (m : mime) : list bytes :=
  if bytes_eqb (mmain m) [42]%Z || bytes_eqb (msub m) [42]%Z then [] else [mmain m ++ [47%Z] ++ msub m].

(** All names a parser has by itself. *)
Definition own_names (p : parser) : list bytes :=
  pname p :: flat_map port_names (pports p) ++ flat_map mime_names (pmimes p).

(** Names given by an alias. *)
Definition alias_names (a : bytes) : list bytes :=
  if existsb (Z.eqb 37) a then [a] else [a; a ++ [37; 111; 114; 105; 103]; a ++ [37; 114; 101; 115; 112]]%Z.

(** A program: parsers get registered, the runtime is initialised, then aliases (parser name, alias) are requested. *)
Definition valid_mime (m : mime) : Prop := mmain m <> [] /\ msub m <> [].
Definition valid_parser (p : parser) : Prop := Forall valid_mime (pmimes p).

Fixpoint run_aliases (g : gstate) (l : list (bytes * bytes)) : gstate :=
  match l with
  | [] => g
  | (pn, a) :: r => match register_alias g pn a with Some g' => run_aliases g' r | None => run_aliases g r end
  end.
Definition setup (ps : list parser) (als : list (bytes * bytes)) : res gstate :=
  let* g := init (fold_left register ps ginit) in Ok (run_aliases g als).

(** The aliases that take effect, with the parser they go to: the first public parser of that name. *)
Definition alias_target (ps : list parser) (x : bytes * bytes) : option parser :=
  match fst x, snd x with
  | [], _ | _, [] => None
  | _, _ => find (fun p => ppublic p && bytes_eqb (pname p) (fst x)) ps
  end.

(** Everything that is registered: pairs of name and parser. *)
Definition registrations (ps : list parser) (als : list (bytes * bytes)) : list (bytes * parser) :=
  flat_map (fun p => map (fun n => (n, p)) (own_names p)) ps ++
  flat_map (fun x => match alias_target ps x with
                     | Some p => map (fun n => (n, p)) (alias_names (snd x))
                     | None => []
                     end) als.

(** A requested type matches a declared one: same type, or declared with wildcard subtype for the same main type, or
    declared with a wildcard as main type. *)
Definition mime_matches (want decl : mime) : Prop :=
  want = decl \/ (mmain decl = mmain want /\ msub decl = [42]%Z) \/ mmain decl = [42]%Z.
