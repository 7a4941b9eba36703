(** A schema and documents used to show that the hypotheses of the theorems are met by concrete cases. *)
From Verif Require Import Base Ast.
Local Open Scope string_scope.
Local Open Scope list_scope.

Definition mk_iv n t df := {| iv_name := tx n; iv_desc := None; iv_type := t; iv_default := df; iv_dirs := [] |}.
Definition mk_fd n args t := {| fd_name := tx n; fd_desc := None; fd_args := args; fd_type := t; fd_dirs := []; fd_builtin := false |}.
Definition ty n := TBase (tx n) false.
Definition ty_req n := TBase (tx n) true.
Definition mk_obj n is fs := DObject {| ob_name := tx n; ob_desc := None; ob_ifaces := map tx is; ob_dirs := []; ob_fields := fs; ob_builtin := false |}.

Definition ex_types : list tdef :=
  [ DBuiltin BBoolean;
    mk_obj "Cat" ["Pet"] [mk_fd "name" [] (ty_req "String"); mk_fd "meows" [] (ty "Int")];
    DUnion {| un_name := tx "CatOrDog"; un_desc := None; un_dirs := []; un_members := [tx "Cat"; tx "Dog"];
              un_fields := [mk_fd "__typename" [] (ty_req "String")] |};
    DEnum {| en_name := tx "Color"; en_desc := None; en_dirs := [];
             en_values := [{| ev_name := tx "RED"; ev_desc := None; ev_dirs := [] |}]; en_builtin := false |};
    mk_obj "Dog" ["Pet"] [mk_fd "name" [] (ty_req "String"); mk_fd "friend" [] (ty "Pet")];
    mk_obj "Fish" [] [mk_fd "size" [] (ty "Int")];
    DBuiltin BID; DBuiltin BInt;
    DInput {| io_name := tx "Opts"; io_desc := None; io_dirs := [];
              io_fields := [mk_iv "a" (ty_req "Int") None; mk_iv "b" (TList (ty "Opts") false) None] |};
    DInterface {| if_name := tx "Pet"; if_desc := None; if_ifaces := []; if_dirs := [];
                  if_fields := [mk_fd "name" [] (ty_req "String")] |};
    mk_obj "Query" [] [mk_fd "dog" [mk_iv "id" (ty_req "ID") None; mk_iv "opts" (ty "Opts") None] (ty "Dog");
                       mk_fd "pet" [] (ty "Pet"); mk_fd "pets" [mk_iv "first" (ty "Int") (Some (VInt 10))] (TList (ty "Pet") false);
                       mk_fd "any" [] (ty "CatOrDog"); mk_fd "name" [] (ty "String"); mk_fd "fish" [] (ty "Fish")];
    DBuiltin BString;
    mk_obj "Subscription" [] [mk_fd "a" [] (ty "Int"); mk_fd "b" [] (ty "Int")] ].
Definition ex_ddefs : list ddef :=
  [ {| dd_name := tx "include"; dd_desc := None; dd_args := [mk_iv "if" (ty_req "Boolean") None]; dd_repeatable := false;
       dd_locs := [LField; LFragmentSpread; LInlineFragment]; dd_builtin := true |};
    {| dd_name := tx "skip"; dd_desc := None; dd_args := [mk_iv "if" (ty_req "Boolean") None]; dd_repeatable := false;
       dd_locs := [LField; LFragmentSpread; LInlineFragment]; dd_builtin := true |};
    {| dd_name := tx "tag"; dd_desc := None; dd_args := [mk_iv "t" (ty "String") None]; dd_repeatable := true;
       dd_locs := [LQuery; LVariableDefinition]; dd_builtin := false |} ].
Definition ex_schema : schema :=
  {| s_desc := None; s_types := ex_types; s_ddefs := ex_ddefs; s_query := tx "Query"; s_mutation := None;
     s_subscription := Some (tx "Subscription"); s_dirs := [] |}.

Definition fld n args sub := SField None (tx n) args [] sub.
Definition spr n := SSpread (tx n) [].
Definition op_query name vars sel :=
  {| op_explicit := true; op_type := OQuery; op_name := name; op_vars := vars; op_dirs := []; op_sel := sel |}.
Definition mk_frag n c sel := {| fr_name := tx n; fr_cond := tx c; fr_dirs := []; fr_sel := sel |}.
Definition mk_var n t df := {| vd_name := tx n; vd_type := t; vd_default := df; vd_dirs := [] |}.

(** query Q($id: ID!, $o: Int = 3) { dog(id: $id, opts: {a: $o}) { name ...F } pet { ... on Cat { meows } } } fragment F on Pet { name } *)
Definition ex_doc : document :=
  {| doc_ops := [op_query (Some (tx "Q")) [mk_var "id" (ty_req "ID") None; mk_var "o" (ty_req "Int") (Some (VInt 3))]
       [fld "dog" [(tx "id", VVar (tx "id")); (tx "opts", VObj [(tx "a", VVar (tx "o"))])] [fld "name" [] []; spr "F"];
        fld "pet" [] [SInline (Some (tx "Cat")) [] [fld "meows" [] []]]]];
     doc_frags := [mk_frag "F" "Pet" [fld "name" [] []]] |}.
