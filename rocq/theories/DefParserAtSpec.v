(** Located definitions without their positions. *)
From Verif Require Import Base Ast Lexer Parser Location DefParser ParserAt DefParserAt ParserAtSpec.

Definition plain_desc (o : ldesc) : option text := option_map fst o.
Definition plain_ivd (i : livd) : ivd :=
  {| iv_name := fst (liv_name i); iv_desc := plain_desc (liv_desc i); iv_type := plain_type (liv_type i); iv_default := option_map plain_value (liv_default i);
     iv_dirs := plain_directives (liv_dirs i) |}.
Definition plain_ivds (o : option livds) : list ivd := match o with Some l => map plain_ivd (fst l) | None => [] end.
(** a field of the text is not built in *)
Definition plain_fdef (f : lfdef) : fdef :=
  {| fd_name := fst (lfd_name f); fd_desc := plain_desc (lfd_desc f); fd_args := plain_ivds (lfd_args f); fd_type := plain_type (lfd_type f);
     fd_dirs := plain_directives (lfd_dirs f); fd_builtin := false |}.
(** the fields of a composite type: [__typename], then those of the text *)
Definition plain_fdefs (l : list lfdef) : list fdef := typename_field :: map plain_fdef l.
Definition plain_evd (e : levd) : evd := {| ev_name := fst (lev_name e); ev_desc := plain_desc (lev_desc e); ev_dirs := plain_directives (lev_dirs e) |}.
Definition plain_tdef (t : ltdef) : tdef :=
  match t with
  | LDScalar n d ds => DScalar {| sc_name := fst n; sc_desc := plain_desc d; sc_dirs := plain_directives ds |}
  | LDObject n d is_ ds fs =>
      DObject {| ob_name := fst n; ob_desc := plain_desc d; ob_ifaces := map fst is_; ob_dirs := plain_directives ds; ob_fields := plain_fdefs (fst fs); ob_builtin := false |}
  | LDInterface n d is_ ds fs =>
      DInterface {| if_name := fst n; if_desc := plain_desc d; if_ifaces := map fst is_; if_dirs := plain_directives ds; if_fields := plain_fdefs (fst fs) |}
  | LDUnion n d ds ms => DUnion {| un_name := fst n; un_desc := plain_desc d; un_dirs := plain_directives ds; un_members := map fst ms; un_fields := [typename_field] |}
  | LDInput n d ds fs => DInput {| io_name := fst n; io_desc := plain_desc d; io_dirs := plain_directives ds; io_fields := map plain_ivd (fst fs) |}
  | LDEnum n d ds vs => DEnum {| en_name := fst n; en_desc := plain_desc d; en_dirs := plain_directives ds; en_values := map plain_evd (fst vs); en_builtin := false |}
  end.
Definition plain_ddef (d : lddef) : ddef :=
  {| dd_name := fst (ldd_name d); dd_desc := plain_desc (ldd_desc d); dd_args := plain_ivds (ldd_args d); dd_repeatable := ldd_repeatable d;
     dd_locs := map fst (ldd_locs d); dd_builtin := false |}.
Definition plain_esdef (e : lesdef) : esdef :=
  {| es_desc := plain_desc (les_desc e); es_dirs := plain_directives (les_dirs e); es_roots := map (fun p => (fst p, fst (snd p))) (les_roots e) |}.
Definition plain_sysdef (x : lsysdef) : sysdef :=
  match x with LSchemaDef e => SysSchema (plain_esdef e) | LDirectiveDef d => SysDirective (plain_ddef d) | LTypeDef t => SysType (plain_tdef t) end.
