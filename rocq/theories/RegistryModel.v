(** Model of the parser registry: spicy/runtime/src/init.cc:17-88, spicy/runtime/src/parser.cc:42-97,
    spicy/runtime/include/parser.h:35, 57-65, 362-369, 461-479, spicy/runtime/include/global-state.h:43-60, and of the
    selection in spicy/runtime/src/sink.cc:396-424. A parser is identified by a number. The std::maps are total functions from
    names to lists; a name that is not in the map has the empty list (entries are only created by appending to them). *)
From Verif Require Import Base StrModel MimeModel PortModel.

(** parser.h:35 *)
Inductive direction := DOrig | DResp | DBoth | DUndef.

(** parser.h:149-360, restricted to what the registry looks at; [psink] says whether __parse_sink is set (parser.h:474-479) *)
Record parser := mkParser {
  pid : nat; pname : bytes; ppublic : bool; pscope : Z; pports : list (port * direction); pmimes : list mime; psink : bool }.

(** global-state.h:43-60 *)
Record gstate := mkG {
  parsers : list parser; by_name : bytes -> list parser; by_mime : bytes -> list parser;
  default_parser : option parser; inited : bool }.
Definition ginit : gstate := mkG [] (fun _ => []) (fun _ => []) None false.

(** parsers_by_name[k].emplace_back(p) *)
Definition push (m : bytes -> list parser) (k : bytes) (p : parser) : bytes -> list parser :=
  fun x => if bytes_eqb x k then m x ++ [p] else m x.

Definition s_orig : bytes := [37; 111; 114; 105; 103]%Z.
Definition s_resp : bytes := [37; 114; 101; 115; 112]%Z.

(** parser.h:461-470 registerParser *)
Definition register (g : gstate) (p : parser) : gstate :=
  mkG (parsers g ++ [p]) (by_name g) (by_mime g) (default_parser g) (inited g).

(** init.cc:43-58 one port *)
Definition add_port (p : parser) (m : bytes -> list parser) (x : port * direction) : bytes -> list parser :=
  let idx := port_print (fst x) in
  match snd x with
  | DOrig => push m (idx ++ s_orig) p
  | DResp => push m (idx ++ s_resp) p
  | DBoth => push (push (push m idx p) (idx ++ s_orig) p) (idx ++ s_resp) p
  | DUndef => m
  end.

(** init.cc:60-65 the MIME types *)
Fixpoint add_mimes (p : parser) (l : list mime) (n t : bytes -> list parser) : res ((bytes -> list parser) * (bytes -> list parser)) :=
  match l with
  | [] => Ok (n, t)
  | mt :: r =>
      let* n' := if is_wildcard mt then Ok n else (let* s := mime_string mt in Ok (push n s p)) in
      let* k := as_key mt in
      add_mimes p r n' (push t k p)
  end.

(** init.cc:33-66 the loop over all parsers *)
Fixpoint init_loop (l : list parser) (n t : bytes -> list parser) (d : option parser)
  : res ((bytes -> list parser) * (bytes -> list parser) * option parser) :=
  match l with
  | [] => Ok (n, t, d)
  | p :: r =>
      let d' := if ppublic p then (match d with None => Some p | Some _ => None end) else d in
      let n1 := push n (pname p) p in
      let n2 := fold_left (add_port p) (pports p) n1 in
      let* x := add_mimes p (pmimes p) n2 t in
      init_loop r (fst x) (snd x) d'
  end.

(** init.cc:17-88 init *)
Definition init (g : gstate) : res gstate :=
  if inited g then Ok g else
  let* x := init_loop (parsers g) (by_name g) (by_mime g) None in
  let '(n, t, d) := x in Ok (mkG (parsers g) n t d true).

(** parser.cc:42-67 registerParserAlias; None is the error result *)
Definition register_alias (g : gstate) (pn alias : bytes) : option gstate :=
  match pn, alias with
  | [], _ | _, [] => None
  | _, _ =>
      match find (fun p => ppublic p && bytes_eqb (pname p) pn) (parsers g) with
      | None => None
      | Some p =>
          let n1 := push (by_name g) alias p in
          let n2 := match find_first (Z.eqb 37) alias with
                    | None => push (push n1 (alias ++ s_orig) p) (alias ++ s_resp) p
                    | Some _ => n1
                    end in
          Some (mkG (parsers g) n2 (by_mime g) (default_parser g) (inited g))
      end
  end.

(** parser.cc:69-97 lookupParser; None is the error result *)
Definition lookup_parser (g : gstate) (name : bytes) (scope : option Z) : option parser :=
  if negb (existsb ppublic (parsers g)) then None else
  match name with
  | [] => default_parser g
  | _ =>
      match by_name g name with
      | [] => None
      | _ :: _ :: _ => None                                    (* multiple matching parsers *)
      | [x] => match scope with
               | None => Some x
               | Some s => if Z.eqb (pscope x) s then Some x else None
               end
      end
  end.

(** sink.cc:397-419 connect_matching: the parsers connected for one key *)
Definition connect_matching (g : gstate) (mt : mime) (scope : Z) : res (list parser) :=
  let* k := as_key mt in
  Ok (filter (fun p => (ppublic p || Z.eqb (pscope p) scope) && psink p) (by_mime g k)).

(** sink.cc:396-424 connect_mime_type: the parsers connected, in order *)
Definition connect_mime_type (g : gstate) (mt : mime) (scope : Z) : res (list parser) :=
  let* a := connect_matching g mt scope in
  let* m := main_type mt in
  let* b := connect_matching g (mkMime m star) scope in
  let* c := connect_matching g (mkMime star star) scope in
  Ok (a ++ b ++ c).
