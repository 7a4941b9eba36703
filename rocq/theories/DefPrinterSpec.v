(** What a printed schema shows: the same schema, with the descriptions as block strings give them back. *)
From Coq Require Import String.
From Verif Require Import Base Ast LexerSpec Printer DefParser.

(** the value the specification gives to a block string that has a line break, the lines of the description, each behind [n]
    spaces, and [n] spaces *)
Definition block_shows (n : nat) (s : text) : text :=
  spec_block_value (10%N :: concat (map (fun l => repeat 32%N n ++ l ++ [10%N]) (str_lines s)) ++ repeat 32%N n).
Definition shown (n : nat) (d : option text) : option text := option_map (block_shows n) d.
Definition shown_ivd (n : nat) (i : ivd) : ivd :=
  {| iv_name := iv_name i; iv_desc := shown n (iv_desc i); iv_type := iv_type i; iv_default := iv_default i; iv_dirs := iv_dirs i |}.
Definition shown_fdef (f : fdef) : fdef :=
  {| fd_name := fd_name f; fd_desc := shown 2 (fd_desc f); fd_args := map (shown_ivd 4) (fd_args f); fd_type := fd_type f; fd_dirs := fd_dirs f; fd_builtin := fd_builtin f |}.
Definition shown_evd (v : evd) : evd := {| ev_name := ev_name v; ev_desc := shown 2 (ev_desc v); ev_dirs := ev_dirs v |}.
Definition shown_ddef (d : ddef) : ddef :=
  {| dd_name := dd_name d; dd_desc := shown 0 (dd_desc d); dd_args := map (shown_ivd 2) (dd_args d); dd_repeatable := dd_repeatable d; dd_locs := dd_locs d; dd_builtin := dd_builtin d |}.
Definition shown_tdef (t : tdef) : tdef :=
  match t with
  | DBuiltin b => DBuiltin b
  | DScalar s => DScalar {| sc_name := sc_name s; sc_desc := shown 0 (sc_desc s); sc_dirs := sc_dirs s |}
  | DObject o => DObject {| ob_name := ob_name o; ob_desc := shown 0 (ob_desc o); ob_ifaces := ob_ifaces o; ob_dirs := ob_dirs o;
                            ob_fields := map shown_fdef (ob_fields o); ob_builtin := ob_builtin o |}
  | DInterface i => DInterface {| if_name := if_name i; if_desc := shown 0 (if_desc i); if_ifaces := if_ifaces i; if_dirs := if_dirs i; if_fields := map shown_fdef (if_fields i) |}
  | DUnion u => DUnion {| un_name := un_name u; un_desc := shown 0 (un_desc u); un_dirs := un_dirs u; un_members := un_members u; un_fields := un_fields u |}
  | DInput i => DInput {| io_name := io_name i; io_desc := shown 0 (io_desc i); io_dirs := io_dirs i; io_fields := map (shown_ivd 2) (io_fields i) |}
  | DEnum e => DEnum {| en_name := en_name e; en_desc := shown 0 (en_desc e); en_dirs := en_dirs e; en_values := map shown_evd (en_values e); en_builtin := en_builtin e |}
  end.
Definition shown_schema (s : schema) : schema :=
  {| s_desc := shown 0 (s_desc s); s_types := map shown_tdef (s_types s); s_ddefs := map shown_ddef (s_ddefs s);
     s_query := s_query s; s_mutation := s_mutation s; s_subscription := s_subscription s; s_dirs := s_dirs s |}.
(** the roots are the conventional ones, or there is something that only a schema definition can say *)
Definition has_type (s : schema) (n : string) : Prop := In (tx n) (map td_name (s_types s)).
Definition conventional_names (s : schema) : Prop :=
  s_desc s = None /\ s_dirs s = [] /\ s_query s = tx "Query" /\
  (s_mutation s = None \/ s_mutation s = Some (tx "Mutation")) /\ (s_subscription s = None \/ s_subscription s = Some (tx "Subscription")).
(** no type is taken for a root that is not one *)
Definition roots_recognisable (s : schema) : Prop :=
  conventional_names s -> (has_type s "Mutation" -> s_mutation s <> None) /\ (has_type s "Subscription" -> s_subscription s <> None).
Definition same_roots (a b : schema) : Prop := s_query a = s_query b /\ s_mutation a = s_mutation b /\ s_subscription a = s_subscription b.
(** the descriptions in a schema *)
Definition some_text (d : option text) : list text := match d with Some s => [s] | None => [] end.
Definition fdef_descriptions (f : fdef) : list text := some_text (fd_desc f) ++ flat_map (fun i => some_text (iv_desc i)) (fd_args f).
Definition ddef_descriptions (d : ddef) : list text := some_text (dd_desc d) ++ flat_map (fun i => some_text (iv_desc i)) (dd_args d).
Definition tdef_descriptions (t : tdef) : list text :=
  match t with
  | DBuiltin _ => []
  | DScalar s => some_text (sc_desc s)
  | DObject o => some_text (ob_desc o) ++ flat_map fdef_descriptions (ob_fields o)
  | DInterface i => some_text (if_desc i) ++ flat_map fdef_descriptions (if_fields i)
  | DUnion u => some_text (un_desc u)
  | DInput i => some_text (io_desc i) ++ flat_map (fun v => some_text (iv_desc v)) (io_fields i)
  | DEnum e => some_text (en_desc e) ++ flat_map (fun v => some_text (ev_desc v)) (en_values e)
  end.
Definition descriptions (s : schema) : list text := some_text (s_desc s) ++ flat_map tdef_descriptions (s_types s) ++ flat_map ddef_descriptions (s_ddefs s).
