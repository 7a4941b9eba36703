(** What the errors about the enum and input types of a schema document are, and where in the document they are marked. *)
From Coq Require Import String Permutation.
From Verif Require Import Base Ast Graph Location ParserAt DefParserAt ParserAtSpec DefParserAtSpec ResolveAt ResolveAtSpec DefRules DefRulesAt.
Local Open Scope string_scope.
Local Open Scope list_scope.

(** without positions *)
Definition plain_deferr (e : ldeferr) : deferr :=
  match e with
  | LDRepeatedEnumValue n vs => DRepeatedEnumValue n (map plain_evd vs)
  | LDRepeatedInputField n fs => DRepeatedInputField n (map plain_ivd fs)
  | LDCircularInput n refs => DCircularInput (fst n) (map plain_type refs)
  end.

Section Wrong.
  (** the definitions of the document *)
  Variable l : list lsysdef.
  Definition enum_type (n : lname) (vs : list levd) : Prop := exists d ds sp, In (LDEnum n d ds (vs, sp)) (doc_types l).
  Definition input_type (n : lname) (fs : list livd) : Prop := exists d ds sp, In (LDInput n d ds (fs, sp)) (doc_types l).
  (** every value of the input type [a] has one of the input type [b] in it: a field of [a] is of type [b!] *)
  Definition needs (a b : name) : Prop :=
    exists n fs f m sp n' fs', input_type n fs /\ fst n = a /\ In f fs /\ liv_type f = LTBase m true sp /\ fst m = b /\ input_type n' fs' /\ fst n' = b.
  (** where among these fields a type is [n!] *)
  Definition references (n : name) (fs : list livd) : list (nat * nat) :=
    flat_map (fun f => match liv_type f with LTBase m true sp => if teqb (fst m) n then [sp] else [] | _ => [] end) fs.
  Definition values_named (k : name) (vs : list levd) : list levd := filter (fun v => teqb (fst (lev_name v)) k) vs.
  Definition fields_named (k : name) (fs : list livd) : list livd := filter (fun f => teqb (fst (liv_name f)) k) fs.
  Inductive wrong_type : err -> Prop :=
  | wt_enum n vs k : enum_type n vs -> 2 <= length (values_named k vs) ->
      wrong_type (at_places (tx "Multiple enum value definitions named `" ++ k ++ tx "`")
        (map (fun v => (tx "Enum value definition with name `" ++ k ++ tx "`", snd (lev_name v))) (values_named k vs)))
  | wt_input n fs k : input_type n fs -> 2 <= length (fields_named k fs) ->
      wrong_type (at_places (tx "Multiple input value definitions named `" ++ k ++ tx "`")
        (map (fun f => (tx "Input value definition with name `" ++ k ++ tx "`", snd (liv_name f))) (fields_named k fs)))
  (** an input type whose values would have values of the type itself in them: its name is marked, and, in the types it needs, every
      field that refers to it *)
  | wt_circular n fs needed places :
      input_type n fs -> plus needs (fst n) (fst n) ->
      NoDup (map (fun t => fst (fst t)) needed) -> (forall m fs', In (m, fs') needed <-> input_type m fs' /\ star needs (fst n) (fst m)) ->
      Permutation places (flat_map (fun t => references (fst n) (snd t)) needed) ->
      wrong_type {| er_message := tx "Input object type definition `" ++ fst n ++ tx "` contains disallowed circular reference(s)";
                    er_primary := Some (tx "Input object type definition contains circular reference(s) through an unbroken chain of non-null singular fields, which is disallowed", snd n);
                    er_secondary := map (fun sp => (tx "Occurence of circular reference", sp)) places |}.
End Wrong.
