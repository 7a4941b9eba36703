(** Other names for variables (C90). *)
From Verif Require Import Base Ast.

Section Names.
  (** the new names of variables *)
  Variable variable_name : name -> name.
  Fixpoint named_value (v : value) : value :=
    match v with
    | VVar x => VVar (variable_name x)
    | VList vs => VList (map named_value vs)
    | VObj es => VObj (map (fun e => (fst e, named_value (snd e))) es)
    | _ => v
    end.
  Definition named_argument (a : argument) : argument := (fst a, named_value (snd a)).
  Definition named_directive (x : directive) : directive := {| dir_name := dir_name x; dir_args := map named_argument (dir_args x) |}.
  Fixpoint named_selection (s : selection) : selection :=
    match s with
    | SField al n args ds sub => SField al n (map named_argument args) (map named_directive ds) (map named_selection sub)
    | SInline c ds sub => SInline c (map named_directive ds) (map named_selection sub)
    | SSpread n ds => SSpread n (map named_directive ds)
    end.
  (** default values and the directives of a definition cannot contain variables *)
  Definition named_variable (v : vardef) : vardef :=
    {| vd_name := variable_name (vd_name v); vd_type := vd_type v; vd_default := vd_default v; vd_dirs := vd_dirs v |}.
  Definition named_operation (o : operation) : operation :=
    {| op_explicit := op_explicit o; op_type := op_type o; op_name := op_name o; op_vars := map named_variable (op_vars o);
       op_dirs := map named_directive (op_dirs o); op_sel := map named_selection (op_sel o) |}.
  Definition named_fragment (f : fragment) : fragment :=
    {| fr_name := fr_name f; fr_cond := fr_cond f; fr_dirs := map named_directive (fr_dirs f); fr_sel := map named_selection (fr_sel f) |}.
  Definition named_document (d : document) : document :=
    {| doc_ops := map named_operation (doc_ops d); doc_frags := map named_fragment (doc_frags d) |}.
End Names.
