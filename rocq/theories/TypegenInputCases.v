(** Cases which meet the hypotheses of the theorems about generated input types, and cases which show where the results stop. *)
From Verif Require Import Base Ast Graph DocRulesSpec DefParser Resolve ResolveSpec ResolveProofs ResolveProps CoercionTypes CoercionSpec Coercion DefRules
                          Json Typegen TypegenDe TypegenSpec TypegenProofs TypegenInput TypegenInputSpec TypegenInputProofs TypegenInputProps TypegenInputAccepted.
Local Open Scope string_scope.
Local Open Scope list_scope.

(** The condition on references of input types holds for every schema that has been resolved. *)
Theorem resolved_inputs : forall d s, Resolve.resolve d = inl s -> inputs_resolved s.
Proof.
  intros d s H. pose proof (c13_references _ _ H) as R. apply resolve_schema in H. pose proof (so_types_sorted _ _ H) as Sd. constructor.
  - intros x i Hx Hi. destruct (ro_values _ _ R i) as (u & I & E & K); [eapply vd_input_field; eauto|]. exists u. rewrite <- E. split; auto. apply get_type_sorted; auto.
  - apply Maps.sorted_NoDup; auto.
Qed.

Definition schema_in (s : string) : schema :=
  match run s with
  | inl (inl x) => x
  | _ => {| s_desc := None; s_types := []; s_ddefs := []; s_query := []; s_mutation := None; s_subscription := None; s_dirs := [] |}
  end.
Definition read_ok (s : string) : bool := match run s with inl (inl _) => true | _ => false end.
Lemma schema_in_resolved s : read_ok s = true -> inputs_resolved (schema_in s).
Proof.
  unfold read_ok, schema_in. destruct (run s) as [[x|]|] eqn:E; try discriminate. intros _. unfold run, read_schema_with in E.
  destruct (parse_schema_text _ _ _ _ _ _) as [d|]; [|discriminate]. destruct (Resolve.resolve d) as [y|] eqn:E'; [|discriminate]. injection E as <-. eapply resolved_inputs; eauto.
Qed.

(** * A schema *)
Definition in_text : string :=
  "type Query { f(i: Person, t: Tree, b: By): Int } scalar Date enum Role { ADMIN GUEST }
   input Person { name: String! age: Int = 3 role: Role born: Date boss: Person friends: [Person!] limit: Int! = 5 }
   input Tree { left: Tree right: Branch weight: Float! }
   input Branch { trees: [Tree!]! up: Tree n: Int }
   input By @oneOf { id: ID person: Person ids: [ID!] }
   directive @oneOf on INPUT_OBJECT".
Definition in_schema : schema := Eval vm_compute in schema_in in_text.
Lemma in_schema_eq : schema_in in_text = in_schema. Proof. vm_compute. reflexivity. Qed.
Definition in_aliases : list alias := [{| ta_name := tx "Date"; ta_types := false; ta_consts := false; ta_lifetimes := 1 |}].
Definition in_map : list (name * bool) := [(tx "Date", true)].
Definition in_borrows : name -> option bool := scalar_lookup (fun n => n) in_map.
Example ex_aliases : custom_scalars (fun n => n) in_schema true in_aliases = inl in_map.
Proof. vm_compute. reflexivity. Qed.
Example ex_aliases_rejected :
  custom_scalars (fun n => n) in_schema false in_aliases = inr (ALifetime (tx "Date")) /\
  custom_scalars (fun n => n) in_schema true [] = inr (AMissing (tx "Date")) /\
  custom_scalars (fun n => n) in_schema true [{| ta_name := tx "Dote"; ta_types := false; ta_consts := false; ta_lifetimes := 0 |}] = inr (ANoScalar (tx "Dote")).
Proof. vm_compute. auto. Qed.
Lemma in_resolved : inputs_resolved in_schema. Proof. rewrite <- in_schema_eq. apply schema_in_resolved. vm_compute. reflexivity. Qed.
Definition in_items : list sitem := Eval vm_compute in match schema_items in_schema true in_borrows with Built x => x | Panics _ => [] end.
Lemma in_built : schema_items in_schema true in_borrows = Built in_items.
Proof. vm_compute. reflexivity. Qed.
(** name, oneOf, lifetime, fields with their types *)
Definition outline (x : sitem) : list (name * bool * bool * list (name * itype)) :=
  match x with SEnum _ => [] | SInput d => [(id_name d, id_one_of d, id_lifetime d, map (fun f => (ifd_key f, ifd_type f)) (id_fields d))] end.
Example ex_items : flat_map outline in_items =
  [(tx "Branch", false, false, [(tx "trees", IVec (IInput (tx "Tree") false)); (tx "up", IOpt (IBox (IInput (tx "Tree") false))); (tx "n", IOpt (IBuiltin BInt false))]);
   (tx "By", true, true, [(tx "id", IBuiltin BID true); (tx "person", IInput (tx "Person") true); (tx "ids", IVec (IBuiltin BID true))]);
   (tx "Person", false, true, [(tx "name", IBuiltin BString true); (tx "age", IOpt (IBuiltin BInt false)); (tx "role", IOpt (IEnum (tx "Role")));
     (tx "born", IOpt (IScalar (tx "Date") true)); (tx "boss", IOpt (IBox (IInput (tx "Person") true))); (tx "friends", IOpt (IVec (IInput (tx "Person") true)));
     (tx "limit", IOpt (IBuiltin BInt false))]);
   (tx "Tree", false, false, [(tx "left", IOpt (IBox (IInput (tx "Tree") false))); (tx "right", IOpt (IBox (IInput (tx "Branch") false))); (tx "weight", IBuiltin BFloat false)])].
Proof. vm_compute. reflexivity. Qed.

(** * A value *)
Definition date_ser (n : name) (j : json) : Prop := exists s, j = JStr s.
Definition date_hook (n : name) (v : value) : option text := match v with VStr _ => None | _ => Some [] end.
Definition item_called (items : list sitem) (n : string) : idef :=
  match find (fun x => match x with SInput d => teqb (id_name d) (tx n) | _ => false end) items with
  | Some (SInput d) => d
  | _ => {| id_name := []; id_one_of := false; id_lifetime := false; id_fields := [] |}
  end.
Lemma item_called_In items n : id_name (item_called items n) = tx n -> tx n <> [] -> In (SInput (item_called items n)) items.
Proof.
  unfold item_called. destruct (find _ items) as [[x|d]|] eqn:E; cbn; try congruence. intros _ _. apply find_some in E. apply E.
Qed.
Definition in_item (n : string) : idef := item_called in_items n.
(** Person { name: "a", age: None, role: ADMIN, born: "x", boss: None, friends: None, limit: 1 } *)
Definition person (boss : rval) : rval :=
  RStruct [(tx "name", RStr (tx "a")); (tx "age", RNone); (tx "role", RSome (REnumValue (tx "ADMIN"))); (tx "born", RSome (RCustom (tx "Date") (JStr (tx "x"))));
           (tx "boss", boss); (tx "friends", RNone); (tx "limit", RSome (RInt 1))].
Definition chk_defaults (d : input_def) (fs : list (name * rval)) : bool :=
  forallb (fun i => negb (tref_required (iv_type i) && has_default i) || negb (existsb (fun f => teqb (fst f) (iv_name i) && match snd f with RNone => true | _ => false end) fs)) (io_fields d).
Lemma chk_defaults_ok d fs i : chk_defaults d fs = true -> In i (io_fields d) -> tref_required (iv_type i) = true -> iv_default i <> None -> ~ In (iv_name i, RNone) fs.
Proof.
  unfold chk_defaults. rewrite forallb_forall. intros H Hi Hr Hd Hin. specialize (H i Hi). rewrite Hr in H. unfold has_default in H.
  destruct (iv_default i); [|congruence]. cbn [negb andb orb] in H. apply negb_true_iff in H.
  assert (existsb (fun f : name * rval => teqb (fst f) (iv_name i) && match snd f with RNone => true | _ => false end) fs = true); [|congruence].
  apply existsb_exists. exists (iv_name i, RNone). split; auto. cbn. rewrite teqb_refl. reflexivity.
Qed.
Lemma person_typed strict boss lt : typed in_schema in_items date_ser strict (IOpt (IBox (IInput (tx "Person") true))) boss ->
  typed in_schema in_items date_ser strict (IInput (tx "Person") lt) (person boss).
Proof.
  intros Hb. apply ty_struct with (d := in_item "Person").
  - apply item_called_In; [vm_compute; reflexivity|discriminate].
  - vm_compute. reflexivity.
  - vm_compute. reflexivity.
  - vm_compute. reflexivity.
  - assert (E : id_fields (in_item "Person") = [ {| ifd_key := tx "name"; ifd_type := IBuiltin BString true; ifd_borrow := true |};
      {| ifd_key := tx "age"; ifd_type := IOpt (IBuiltin BInt false); ifd_borrow := false |};
      {| ifd_key := tx "role"; ifd_type := IOpt (IEnum (tx "Role")); ifd_borrow := false |};
      {| ifd_key := tx "born"; ifd_type := IOpt (IScalar (tx "Date") true); ifd_borrow := true |};
      {| ifd_key := tx "boss"; ifd_type := IOpt (IBox (IInput (tx "Person") true)); ifd_borrow := true |};
      {| ifd_key := tx "friends"; ifd_type := IOpt (IVec (IInput (tx "Person") true)); ifd_borrow := true |};
      {| ifd_key := tx "limit"; ifd_type := IOpt (IBuiltin BInt false); ifd_borrow := false |} ]) by (vm_compute; reflexivity).
    rewrite E. intros i f v Hf Hv.
    destruct i as [|[|[|[|[|[|[|i]]]]]]]; [injection Hf as <-; injection Hv as <-; cbn [ifd_type]..|destruct i; discriminate Hf].
    + constructor.
    + constructor.
    + constructor. assert (Hr : exists x e, In (SEnum x) in_items /\ en_name x = tx "Role" /\ In e (en_values x) /\ ev_name e = tx "ADMIN").
      { eexists _, _. split; [|split; [|split]].
        - eapply (proj2 (item_enum _ _ _ _ in_built _)). vm_compute. do 9 right. left. reflexivity.
        - reflexivity.
        - left. reflexivity.
        - reflexivity. }
      destruct Hr as (x & e & Hx & En & He & Ee).
      refine (eq_ind (ev_name e) (fun a => typed in_schema in_items date_ser strict (IEnum (tx "Role")) (REnumValue a)) _ _ Ee). eapply ty_enum; eauto.
    + constructor. constructor. eexists. reflexivity.
    + exact Hb.
    + constructor.
    + constructor. constructor. lia.
  - intros _ d i Hd Hi Hr Hdef. apply (chk_defaults_ok d); auto. vm_compute in Hd. injection Hd as <-. vm_compute. reflexivity.
Qed.
(** a person with a boss *)
Definition ex_person : rval := person (RSome (person RNone)).
Lemma ex_person_typed lt : typed in_schema in_items date_ser true (IInput (tx "Person") lt) ex_person.
Proof. apply person_typed. apply ty_some, ty_box, person_typed, ty_none. Qed.
Lemma in_fields_distinct d : In (DInput d) (s_types in_schema) -> NoDup (map iv_name (io_fields d)).
Proof.
  intros H. assert (E : forallb (fun t => match t with DInput d => match duplicates iv_name (io_fields d) with [] => true | _ => false end | _ => true end) (s_types in_schema) = true)
    by (vm_compute; reflexivity).
  rewrite forallb_forall in E. specialize (E _ H). cbn in E. apply duplicates_nil. destruct (duplicates iv_name (io_fields d)); congruence.
Qed.
Lemma in_one_of : one_of_nullable in_schema.
Proof.
  intros d i H Ho Hi. assert (E : forallb (fun t => match t with DInput d => negb (has_directive (tx "oneOf") (io_dirs d)) || forallb (fun i => negb (tref_required (iv_type i))) (io_fields d) | _ => true end)
    (s_types in_schema) = true) by (vm_compute; reflexivity).
  rewrite forallb_forall in E. specialize (E _ H). cbn [negb orb] in E. rewrite Ho in E. cbn [negb orb] in E. rewrite forallb_forall in E. apply negb_true_iff. auto.
Qed.
(** By::Person(...), with both codecs *)
Definition ex_by : rval := RVariant (tx "person") [(tx "person", ex_person)].
Lemma ex_by_typed lt : typed in_schema in_items date_ser true (IInput (tx "By") lt) ex_by.
Proof.
  assert (Hf : exists f, In f (id_fields (in_item "By")) /\ ifd_key f = tx "person" /\ ifd_type f = IInput (tx "Person") true).
  { eexists. split; [vm_compute; right; left; reflexivity|]. split; reflexivity. }
  destruct Hf as (f & Hf & Ek & Et). unfold ex_by. rewrite <- Ek. eapply ty_variant with (d := in_item "By"); auto.
  - apply item_called_In; [vm_compute; reflexivity|discriminate].
  - rewrite Et. apply ex_person_typed.
Qed.
Example ex_serialized : ser Miniserde ex_by = Some (JObj [(tx "person", JObj
  [(tx "name", JStr (tx "a")); (tx "age", JNull); (tx "role", JStr (tx "ADMIN")); (tx "born", JStr (tx "x"));
   (tx "boss", JObj [(tx "name", JStr (tx "a")); (tx "age", JNull); (tx "role", JStr (tx "ADMIN")); (tx "born", JStr (tx "x")); (tx "boss", JNull); (tx "friends", JNull); (tx "limit", JInt 1)]);
   (tx "friends", JNull); (tx "limit", JInt 1)])]).
Proof. vm_compute. reflexivity. Qed.
Example ex_accepted : exists j, ser Serde ex_by = Some j /\ coerce_value date_hook true true in_schema (TBase (tx "By") true) (json_value (fun _ => 0%N) j) [] = [].
Proof.
  eapply (serialized_inputs_accepted_partial in_schema true in_borrows in_items Serde (fun _ => 0%N) date_hook true date_ser in_resolved in_built).
  - apply in_fields_distinct.
  - apply in_one_of.
  - intros n j (x & ->). split; [discriminate|reflexivity].
  - apply (ex_by_typed true).
  - eexists. vm_compute. reflexivity.
Qed.

(** * Where the result stops *)
(** A field that is required but has a default value can be left out, but not given as null. It is generated as an option and
    [None] is written as null. *)
Theorem serialized_default_refuted : exists text v j,
  let S := schema_in text in exists items,
  read_ok text = true /\ schema_items S false (fun _ => None) = Built items /\
  typed S items (fun _ _ => False) false (IInput (tx "I") false) v /\
  ser Serde v = Some j /\ ser Miniserde v = Some j /\
  coerce_value (fun _ _ => None) true true S (TBase (tx "I") true) (json_value (fun _ => 0%N) j) [] <> [].
Proof.
  exists "type Query { f(i: I): Int } input I { x: Int! = 5 }", (RStruct [(tx "x", RNone)]), (JObj [(tx "x", JNull)]). cbv zeta.
  eexists. split; [vm_compute; reflexivity|]. split; [vm_compute; reflexivity|]. split.
  - eapply ty_struct.
    + left. reflexivity.
    + reflexivity.
    + reflexivity.
    + reflexivity.
    + intros [|[|i]] f v [= <-] [= <-]; cbn [ifd_type]. constructor.
    + intros E. discriminate E.
  - split; [reflexivity|]. split; [reflexivity|]. vm_compute. discriminate.
Qed.
(** A server that knows an enum value that the client does not may send it; the client holds it as Other. Sending that back
    fails: serde writes a member called Other, miniserde's serializer panics. *)
Theorem serialized_other_refuted : exists text v j,
  let S := schema_in text in exists items,
  read_ok text = true /\ schema_items S false (fun _ => None) = Built items /\
  typed S items (fun _ _ => False) false (IInput (tx "I") false) v /\
  ser Serde v = Some j /\ ser Miniserde v = None /\
  coerce_value (fun _ _ => None) true true S (TBase (tx "I") true) (json_value (fun _ => 0%N) j) [] <> [].
Proof.
  exists "type Query { f(i: I): Int } input I { x: E } enum E { A }", (RStruct [(tx "x", RSome REnumOther)]), (JObj [(tx "x", JStr (tx "Other"))]). cbv zeta.
  eexists. split; [vm_compute; reflexivity|]. split; [vm_compute; reflexivity|]. split.
  - eapply ty_struct.
    + right. left. reflexivity.
    + reflexivity.
    + reflexivity.
    + reflexivity.
    + intros [|[|i]] f v [= <-] [= <-]; cbn [ifd_type]. constructor. constructor. reflexivity.
    + intros E. discriminate E.
  - split; [reflexivity|]. split; [reflexivity|]. vm_compute. discriminate.
Qed.
(** A float that is not finite is written as null, which a required Float does not accept. *)
Theorem serialized_float_refuted : exists text v j,
  let S := schema_in text in exists items,
  read_ok text = true /\ schema_items S false (fun _ => None) = Built items /\
  typed S items (fun _ _ => False) false (IInput (tx "I") false) v /\
  ser Serde v = Some j /\ ser Miniserde v = Some j /\
  coerce_value (fun _ _ => None) true true S (TBase (tx "I") true) (json_value (fun _ => 0%N) j) [] <> [].
Proof.
  exists "type Query { f(i: I): Int } input I { x: Float! }", (RStruct [(tx "x", RFloat (JFloat 9218868437227405312))]), (JObj [(tx "x", JNull)]). cbv zeta.
  eexists. split; [vm_compute; reflexivity|]. split; [vm_compute; reflexivity|]. split.
  - eapply ty_struct.
    + left. reflexivity.
    + reflexivity.
    + reflexivity.
    + reflexivity.
    + intros [|[|i]] f v [= <-] [= <-]; cbn [ifd_type]. constructor. intros E. discriminate E.
    + intros E. discriminate E.
  - split; [reflexivity|]. split; [reflexivity|]. vm_compute. discriminate.
Qed.
(** A oneOf type whose fields are required is not rejected, and no value of it is accepted. *)
Theorem serialized_one_of_refuted : exists text v j,
  let S := schema_in text in exists items,
  read_ok text = true /\ definition_errors S = [] /\ schema_items S false (fun _ => None) = Built items /\
  typed S items (fun _ _ => False) true (IInput (tx "I") false) v /\
  ser Serde v = Some j /\ ser Miniserde v = Some j /\
  coerce_value (fun _ _ => None) true true S (TBase (tx "I") true) (json_value (fun _ => 0%N) j) [] <> [].
Proof.
  exists "type Query { f(i: I): Int } input I @oneOf { x: Int! y: Int! } directive @oneOf on INPUT_OBJECT", (RVariant (tx "x") [(tx "x", RInt 1)]), (JObj [(tx "x", JInt 1)]). cbv zeta.
  eexists. split; [vm_compute; reflexivity|]. split; [vm_compute; reflexivity|]. split; [vm_compute; reflexivity|]. split.
  - refine (ty_variant _ _ _ _ _ _ _ {| ifd_key := tx "x"; ifd_type := IBuiltin BInt false; ifd_borrow := false |} _ _ _ _ _ _).
    + left. reflexivity.
    + reflexivity.
    + reflexivity.
    + left. reflexivity.
    + constructor. lia.
  - split; [reflexivity|]. split; [reflexivity|]. vm_compute. discriminate.
Qed.
(** Boxes are not always needed: here the type of [b] leads back to [A] only through a list, but [A] also has a field of type
    [A] that is not a list. *)
Example boxes_not_minimal :
  match schema_items (schema_in "type Query { f(a: A): Int } input A { b: B a: A } input B { as: [A] }") false (fun _ => None) with
  | Built items => flat_map outline items =
      [(tx "A", false, false, [(tx "b", IOpt (IBox (IInput (tx "B") false))); (tx "a", IOpt (IBox (IInput (tx "A") false)))]);
       (tx "B", false, false, [(tx "as", IOpt (IVec (IOpt (IInput (tx "A") false))))])]
  | Panics _ => False
  end.
Proof. vm_compute. reflexivity. Qed.
(** The items for a schema include those for the enums of introspection, whose names without underscores may be names of the
    schema's own types: then a module defines a type twice. *)
Definition sitem_name (x : sitem) : name := match x with SEnum e => en_name e | SInput d => id_name d end.
Theorem schema_item_names_refuted : forall pascal : name -> name,
  pascal (tx "__TypeKind") = tx "TypeKind" -> pascal (tx "TypeKind") = tx "TypeKind" ->
  exists text items, read_ok text = true /\ definition_errors (schema_in text) = [] /\
    schema_items (schema_in text) false (fun _ => None) = Built items /\
    exists x y, In x items /\ In y items /\ sitem_name x <> sitem_name y /\ pascal (sitem_name x) = pascal (sitem_name y).
Proof.
  intros pascal H1 H2. exists "type Query { f: TypeKind } enum TypeKind { A }". eexists.
  split; [vm_compute; reflexivity|]. split; [vm_compute; reflexivity|]. split; [vm_compute; reflexivity|].
  eexists _, _. split; [left; reflexivity|]. split; [right; right; left; reflexivity|]. split; [vm_compute; discriminate|]. cbn [sitem_name en_name].
  first [exact (eq_trans H1 (eq_sym H2))|exact (eq_trans H2 (eq_sym H1))].
Qed.

Print Assumptions custom_scalars_defined.
Print Assumptions custom_scalars_conditions.
Print Assumptions input_types_generated.
Print Assumptions input_types_finite.
Print Assumptions boxes_exact.
Print Assumptions lifetimes_of_inputs_exact.
Print Assumptions input_references_agree.
Print Assumptions input_lifetimes_used.
Print Assumptions serialized_inputs_accepted_partial.
Print Assumptions resolved_inputs.
