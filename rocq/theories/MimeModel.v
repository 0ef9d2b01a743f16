(** Model of spicy/runtime/include/mime.h:25-142. Strings are lists of bytes. *)
From Verif Require Import Base StrModel.

(** mime.h:32, 140-141; the default-constructed type has empty (invalid) names, mime.h:25 *)
Record mime := mkMime { mmain : bytes; msub : bytes }.
Definition star : bytes := [42]%Z.
Definition slash : bytes := [47]%Z.
Definition mime_default : mime := mkMime [] [].

(** mime.h:50-62 MIMEType(std::string_view) *)
Definition mime_parse (type : bytes) : res mime :=
  if bytes_eqb type star then Ok (mkMime star star) else
  let x := split1 type slash in
  let m := trim (fst x) ws in
  let s := trim (snd x) ws in
  match m, s with
  | [], _ | _, [] => Throw InvalidMIMEType
  | _, _ => Ok (mkMime m s)
  end.

(** mime.h:135-138 ensureValid *)
Definition ensure_valid (m : mime) : res unit :=
  match mmain m, msub m with
  | [], _ | _, [] => Throw InvalidMIMEType
  | _, _ => Ok tt
  end.

(** mime.h:67-76 mainType, subType *)
Definition main_type (m : mime) : res bytes := let* _ := ensure_valid m in Ok (mmain m).
Definition sub_type (m : mime) : res bytes := let* _ := ensure_valid m in Ok (msub m).

(** mime.h:79 isWildcard *)
Definition is_wildcard (m : mime) : bool := bytes_eqb (mmain m) star || bytes_eqb (msub m) star.

(** mime.h:87 operator String *)
Definition mime_string (m : mime) : res bytes :=
  let* a := main_type m in let* b := sub_type m in Ok (a ++ slash ++ b).

(** mime.h:96-106 asKey *)
Definition as_key (m : mime) : res bytes :=
  let* _ := ensure_valid m in
  if bytes_eqb (mmain m) star then Ok []
  else if bytes_eqb (msub m) star then Ok (mmain m)
  else mime_string m.

(** mime.h:122 operator== *)
Definition mime_eqb (a b : mime) : bool := bytes_eqb (mmain a) (mmain b) && bytes_eqb (msub a) (msub b).
