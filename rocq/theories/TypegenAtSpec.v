(** What the macro [typegen] has to say, and to mark in the text, about a document that it does not support. *)
From Coq Require Import String.
From Verif Require Import Base Ast Graph Location DefParser ParserAt ParserAtSpec Doc DocSpec DocRules Typegen ValidatorAt ValidatorAtSpec TypegenAt.
Local Open Scope string_scope.
Local Open Scope list_scope.

(** the errors without positions *)
Definition plain_tgerr (e : ltgerr) : tgerr :=
  match e with
  | LTInlineOnObject i => TInlineOnObject (option_map fst (fst i))
  | LTInlineOnInterface i => TInlineOnInterface (option_map fst (fst i))
  | LTSpreadNotIsolated _ x => TSpreadNotIsolated (fst (fst x))
  | LTNoTypename _ => TNoTypename
  | LTInlineNotMember i u => TInlineNotMember (option_map fst (fst i)) (un_name u)
  | LTRepeatedCondition c _ is => TRepeatedCondition c (length is)
  | LTFieldOnUnion al n => TFieldOnUnion (option_map fst al) (fst n)
  | LTSpreadInvalidTarget x => TSpreadInvalidTarget (fst (fst x))
  | LTNameClash o f => TNameClash (match lop_name o with Some n => fst n | None => tx "Root" end)
  | LTPanic => TPanic
  end.

Definition is_spread (s : lselection) : Prop := match s with LSpread _ _ _ => True | _ => False end.
(** a first selection [__typename], without an alias *)
Definition begins_with_typename (sels : list lselection) : Prop :=
  match sels with LField None n _ _ _ _ :: _ => fst n = tx "__typename" | _ => False end.
(** the positions of the inline fragments on a type *)
Definition fragments_on (c : name) (sels : list lselection) : list span :=
  flat_map (fun s => match s with LInline (Some n) _ _ sp => if teqb (fst n) c then [sp] else [] | _ => [] end) sels.
(** the name of the items made from an operation *)
Definition item_name (o : loperation) : name := match lop_name o with Some n => fst n | None => tx "Root" end.

Section Unsupported.
  Variable S : schema.
  Variable d : ldocument.
  Notation at_type := (fun set t => exists r, at_type S d r set t).
  (** [unsupported er]: the document has something that is not supported, and [er] says what, and where *)
  Inductive unsupported : err -> Prop :=
  | un_not_alone set t before n ds sp after :
      at_type set t -> match t with DObject _ | DInterface _ | DUnion _ => True | _ => False end ->
      fst set = before ++ LSpread n ds sp :: after -> Forall (fun s => ~ is_spread s) before -> before ++ after <> [] ->
      unsupported {| er_message := tx "bluejay_typegen requires a fragment spread to be the only selection in the set";
                     er_primary := Some (tx "Selection set contains a fragment spread and other selections", snd set);
                     er_secondary := [(tx "Fragment spread", sp)] |}
  | un_object set o c ds sub sp : at_type set (DObject o) -> In (LInline c ds sub sp) (fst set) ->
      unsupported (at_place (tx "bluejay_typegen does not allow inline fragments on objects") (tx "Inline fragment on object type") sp)
  | un_interface set i c ds sub sp : at_type set (DInterface i) -> In (LInline c ds sub sp) (fst set) ->
      unsupported (at_place (tx "bluejay_typegen does not allow inline fragments on interfaces") (tx "Inline fragment on interface type") sp)
  (** an interface can only spread fragments on itself and on the interfaces it implements *)
  | un_target set i n ds sp f : at_type set (DInterface i) -> fst set = [LSpread n ds sp] ->
      In f (lfrags d) -> fst (lf_name f) = fst n -> fst (lf_cond f) <> if_name i -> ~ In (fst (lf_cond f)) (if_ifaces i) ->
      unsupported (at_place (tx "bluejay_typegen requires fragment spreads on interfaces to target either the interface or one of the interfaces it implements")
                     (tx "Fragment spread on interface type") sp)
  (** a union: all of the following, or a single spread *)
  | un_typename set u : at_type set (DUnion u) -> (forall n ds sp, fst set <> [LSpread n ds sp]) -> ~ begins_with_typename (fst set) ->
      unsupported (at_place (tx "bluejay_typegen requires unaliased selection of `__typename` on union types to properly deserialize, and for that to be the first in the selection set")
                     (tx "Selection set does not contain an unaliased `__typename` selection as the first selection") (snd set))
  | un_field set u before al n args ds sub sp after : at_type set (DUnion u) -> fst set = before ++ LField al n args ds sub sp :: after ->
      before <> [] \/ ~ begins_with_typename (fst set) ->
      unsupported (at_place (tx "bluejay_typegen does not allow field selections directly on union types, with the exception of unaliased `__typename` as the first selection in the set")
                     (tx "Field selection on union type") (snd n))
  | un_member_on set u c ds sub sp : at_type set (DUnion u) -> In (LInline (Some c) ds sub sp) (fst set) -> ~ In (fst c) (un_members u) ->
      unsupported (at_place (tx "bluejay_typegen requires inline fragments on union to target a union member type") (fst c ++ tx " is not a member type of " ++ un_name u) sp)
  | un_member set u ds sub sp : at_type set (DUnion u) -> In (LInline None ds sub sp) (fst set) ->
      unsupported (at_place (tx "bluejay_typegen requires inline fragments on union to target a union member type") (un_name u ++ tx " is not a member type of " ++ un_name u) sp)
  | un_repeated set u c : at_type set (DUnion u) -> In c (un_members u) -> 2 <= length (fragments_on c (fst set)) ->
      unsupported {| er_message := tx "bluejay_typegen requires the inline fragments in a selection set have unique type conditions";
                     er_primary := Some (tx "Selection set contains multiple inline fragments targeting " ++ c, snd set);
                     er_secondary := map (fun sp => (tx "Inline fragment targeting " ++ c, sp)) (fragments_on c (fst set)) |}
  | un_clash o f : In o (lops d) -> In f (lfrags d) -> fst (lf_name f) = item_name o ->
      unsupported {| er_message := tx "bluejay_typegen requires fragment and operation names to be unique, but encountered a clash with name `" ++ item_name o ++ tx "`";
                     er_primary := Some (tx "Fragment definition name collides with operation definition name", lf_span f);
                     er_secondary := [(tx "Operation definition", operation_span o)] |}.
End Unsupported.
