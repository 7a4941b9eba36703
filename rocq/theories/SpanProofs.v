(** The positions of the parts of a document. *)
From Coq Require Import String Sorted.
From Verif Require Import Base Ast Lexer LexerSpec LexerProofs LexerBlockProofs LexerTokenProofs LexerStreamProofs LexerProps Parser Location ParserAt ParserSpec ParserAtSpec ParserProofs ParserDocProofs ParserAtProofs.

Definition tstart (t : ltok) : nat := fst (snd t).
Definition tend (t : ltok) : nat := snd (snd t).
Definition ordered (ts : list ltok) : Prop :=
  StronglySorted (fun a b => tend a <= tstart b) ts /\ Forall (fun t => tstart t < tend t) ts.
Lemma sorted_app {A} (R : A -> A -> Prop) l1 l2 : StronglySorted R (l1 ++ l2) <->
  StronglySorted R l1 /\ StronglySorted R l2 /\ (forall a b, In a l1 -> In b l2 -> R a b).
Proof.
  induction l1 as [|x l1 IH]; cbn.
  - split; [intros H; repeat split; auto; [constructor|intros a b []]|tauto].
  - split.
    + intros H. inversion_clear H as [|? ? S F]. apply IH in S. destruct S as (S1 & S2 & S3). apply Forall_app in F. destruct F as (F1 & F2).
      repeat split; auto; [constructor; auto|]. intros a b [<-|Ha] Hb; [exact (proj1 (Forall_forall _ _) F2 b Hb)|eauto].
    + intros (H1 & H2 & H3). inversion_clear H1 as [|? ? S F]. constructor; [apply IH; repeat split; auto|].
      apply Forall_app. split; [exact F|]. apply Forall_forall. auto.
Qed.
Lemma ordered_app l1 l2 : ordered (l1 ++ l2) <-> ordered l1 /\ ordered l2 /\ (forall a b, In a l1 -> In b l2 -> tend a <= tstart b).
Proof. unfold ordered. rewrite sorted_app, Forall_app. tauto. Qed.
Lemma ordered_cons t l : ordered (t :: l) -> ordered l /\ tstart t < tend t /\ forall b, In b l -> tend t <= tstart b.
Proof. intros H. change (t :: l) with ([t] ++ l) in H. apply ordered_app in H. destruct H as (H1 & H2 & H3). repeat split; try apply H2.
  - destruct H1 as (_ & F). now inversion_clear F.
  - intros b Hb. apply H3; [left; reflexivity|exact Hb].
Qed.
Lemma ordered_bounds ts t u a b : ordered ts -> ts = t :: a -> ts = b ++ [u] -> forall x, In x ts -> tstart t <= tstart x /\ tend x <= tend u.
Proof.
  intros O E1 E2 x Hx. split.
  - rewrite E1 in O, Hx. destruct Hx as [<-|Hx]; [lia|]. apply ordered_cons in O. destruct O as (_ & O1 & O2). specialize (O2 x Hx). lia.
  - rewrite E2 in O, Hx. apply ordered_app in O. destruct O as (O1 & O2 & O3). apply in_app_or in Hx. destruct Hx as [Hx|[<-|[]]]; [|lia].
    specialize (O3 x u Hx (or_introl eq_refl)). destruct O2 as (_ & F). inversion_clear F. lia.
Qed.
(** the union of the ranges of a beginning and an end of some tokens is the range of all of them *)
Lemma covers_merge ts a b m1 r1 l3 m3 : ordered ts -> covers m1 a -> covers m3 b -> ts = m1 ++ r1 -> ts = l3 ++ m3 -> covers ts (merge a b).
Proof.
  intros O (f1 & e1 & b1 & a1 & H1 & H2 & ->) (f3 & e3 & b3 & a3 & H3 & H4 & ->) E1 E2.
  assert (F : ts = f1 :: (a1 ++ r1)) by (rewrite E1, H1; reflexivity).
  assert (L : ts = (l3 ++ b3) ++ [e3]) by (rewrite E2, H4, app_assoc; reflexivity).
  exists f1, e3, (l3 ++ b3), (a1 ++ r1). repeat split; auto. pose proof (ordered_bounds ts f1 e3 _ _ O F L) as B. unfold merge. cbn [fst snd].
  assert (I1 : In e1 ts) by (rewrite E1, H2; apply in_or_app; left; apply in_or_app; right; left; reflexivity).
  assert (I3 : In f3 ts) by (rewrite E2, H3; apply in_or_app; right; left; reflexivity).
  destruct (B _ I1) as (_ & B1). destruct (B _ I3) as (B3 & _). unfold tstart, tend in *. f_equal; lia.
Qed.
Lemma covers_one t : covers [t] (snd t).
Proof. exists t, t, [], []. repeat split. destruct t as [t [a b]]. reflexivity. Qed.
Lemma covers_start t l sp : covers (t :: l) sp -> fst sp = tstart t.
Proof. intros (f & e & b & a & H1 & H2 & ->). injection H1 as <- _. reflexivity. Qed.
Lemma covers_nonempty l sp : covers l sp -> exists t l', l = t :: l'.
Proof. intros (f & e & b & a & H1 & _). eauto. Qed.

(** ** Parts that are well placed, those of each kind in order *)
Definition good (mid : list ltok) (ns : list node) : Prop :=
  Forall (well_placed mid) ns /\
  forall k, StronglySorted lt (starts k ns) /\ Forall (fun x => In x (map tstart mid)) (starts k ns).
Lemma starts_app k a b : starts k (a ++ b) = starts k a ++ starts k b.
Proof. unfold starts. rewrite filter_app, map_app. reflexivity. Qed.
Lemma well_placed_wide before ts after n : well_placed ts n -> well_placed (before ++ ts ++ after) n.
Proof. intros (b & m & a & -> & H1 & H2). exists (before ++ b), m, (a ++ after). rewrite !app_assoc. auto. Qed.
Lemma good_nil : good [] [].
Proof. split; [constructor|]. intros k. split; constructor. Qed.
Lemma good_wide before mid after ns : good mid ns -> good (before ++ mid ++ after) ns.
Proof.
  intros (H1 & H2). split.
  - eapply Forall_impl; [|exact H1]. intros n. apply well_placed_wide.
  - intros k. destruct (H2 k) as (S & F). split; [exact S|]. eapply Forall_impl; [|exact F]. cbn. intros x Hx. rewrite !map_app. apply in_or_app. right. apply in_or_app. auto.
Qed.
Lemma good_app m1 m2 n1 n2 : ordered (m1 ++ m2) -> good m1 n1 -> good m2 n2 -> good (m1 ++ m2) (n1 ++ n2).
Proof.
  intros O G1 G2. apply ordered_app in O. destruct O as (O1 & O2 & O3).
  destruct (good_wide [] m1 m2 n1 G1) as (W1 & K1). destruct (good_wide m1 m2 [] n2 G2) as (W2 & K2). rewrite app_nil_r in *. cbn in W1, K1. split.
  - apply Forall_app. auto.
  - intros k. rewrite starts_app. destruct (K1 k) as (S1 & F1), (K2 k) as (S2 & F2). split; [|apply Forall_app; auto].
    apply sorted_app. repeat split; auto. intros a b Ha Hb.
    destruct G1 as (_ & G1), G2 as (_ & G2). destruct (G1 k) as (_ & I1), (G2 k) as (_ & I2).
    apply (proj1 (Forall_forall _ _) I1) in Ha. apply (proj1 (Forall_forall _ _) I2) in Hb.
    apply in_map_iff in Ha. destruct Ha as (x & <- & Hx). apply in_map_iff in Hb. destruct Hb as (y & <- & Hy). specialize (O3 x y Hx Hy).
    destruct O1 as (_ & P). apply (proj1 (Forall_forall _ _) P) in Hx. lia.
Qed.
(** a part that begins with the first token, around parts of other kinds and parts that begin later *)
Lemma good_outer t mid n n1 m2 n2 : ordered (t :: mid) -> well_placed (t :: mid) n -> node_start n = tstart t ->
  (exists m1, mid = m1 ++ m2) -> good (t :: mid) (n1 ++ n2) -> good m2 n2 -> Forall (fun x => kind_of x <> kind_of n) n1 ->
  good (t :: mid) (n :: n1 ++ n2).
Proof.
  intros O W S (m1 & E) (G1 & G2) (_ & H2) F. split; [constructor; auto|]. intros k. destruct (G2 k) as (K1 & K2).
  change (n :: n1 ++ n2) with ([n] ++ (n1 ++ n2)). rewrite starts_app. unfold starts at 1 3. cbn [filter].
  destruct (Nat.eqb_spec (kind_of n) k) as [<-|]; [|auto]. cbn [map app]. rewrite S. split; constructor; auto; [|left; reflexivity].
  assert (Z : starts (kind_of n) n1 = []).
  { clear - F. unfold starts. induction F as [|x l Hx F IH]; [reflexivity|]. cbn [filter]. destruct (Nat.eqb_spec (kind_of x) (kind_of n)); [contradiction|exact IH]. }
  rewrite starts_app, Z. cbn [app]. destruct (H2 (kind_of n)) as (_ & I). eapply Forall_impl; [|exact I]. cbn. intros x Hx.
  apply in_map_iff in Hx. destruct Hx as (y & <- & Hy). apply ordered_cons in O. destruct O as (_ & O1 & O2).
  assert (Iy : In y mid) by (rewrite E; apply in_or_app; auto). specialize (O2 y Iy). lia.
Qed.
Lemma placed_all mid n : map fst mid = node_tokens n -> covers mid (node_span n) -> well_placed mid n.
Proof. intros H1 H2. exists [], mid, []. rewrite app_nil_r. auto. Qed.
Lemma good_one t n : ordered [t] -> [fst t] = node_tokens n -> node_span n = snd t -> good [t] [n].
Proof.
  intros O H1 H2. apply (good_outer t [] n [] [] []); auto using good_nil.
  - apply placed_all; [exact H1|]. rewrite H2. apply covers_one.
  - unfold node_start. rewrite H2. reflexivity.
  - exists []. reflexivity.
  - cbn. split; [constructor|]. intros k. split; constructor.
Qed.

(** ** What the functions of the parser read *)
Lemma lbind_ok {A B} (x : lresult A) (f : A -> list ltok -> lresult B) b r :
  lbind x f = LOk b r -> exists a r', x = LOk a r' /\ f a r' = LOk b r.
Proof. destruct x; cbn; [eauto|discriminate]. Qed.
Lemma expect_name_at_inv ts n r : expect_name_at ts = LOk n r -> ts = (TkName (fst n), snd n) :: r.
Proof. destruct ts as [|[[] sp] ts]; cbn; try discriminate. now intros [= <- <-]. Qed.
Lemma expect_variable_at_inv ts n r : expect_variable_at ts = LOk n r -> ts = (TkVar (fst n), snd n) :: r.
Proof. destruct ts as [|[[] sp] ts]; cbn; try discriminate. now intros [= <- <-]. Qed.
Lemma expect_name_value_at_inv v ts sp r : expect_name_value_at v ts = LOk sp r -> ts = (TkName v, sp) :: r.
Proof. destruct ts as [|[[] s] ts]; cbn; try discriminate. destruct (teqb_spec n v) as [->|]; [|discriminate]. now intros [= <- <-]. Qed.
Lemma expect_punct_at_inv p ts sp r : expect_punct_at p ts = LOk sp r -> ts = (P p, sp) :: r.
Proof. destruct ts as [|[[] s] ts]; cbn; try discriminate. destruct (punct_eqb p p0) eqn:E; [|discriminate]. apply punct_eqb_eq in E as ->. now intros [= <- <-]. Qed.
Lemma next_if_punct_at_inv p ts sp r : next_if_punct_at p ts = Some (sp, r) -> ts = (P p, sp) :: r.
Proof. destruct ts as [|[[] s] ts]; cbn; try discriminate. destruct (punct_eqb p p0) eqn:E; [|discriminate]. apply punct_eqb_eq in E as ->. now intros [= <- <-]. Qed.
Lemma next_if_name_at_inv ts n r : next_if_name_at ts = Some (n, r) -> ts = (TkName (fst n), snd n) :: r.
Proof. destruct ts as [|[[] s] ts]; cbn; try discriminate. now intros [= <- <-]. Qed.
Lemma read_tokens {A B} (f : A -> B) p p' tk ok : (forall ts, forget f (p ts) = p' (map fst ts)) -> sound p' tk ok ->
  forall ts a r mid, p ts = LOk a r -> ts = mid ++ r -> map fst mid = tk (f a).
Proof.
  intros F S ts a r mid H E. specialize (F ts). rewrite H in F. cbn in F. symmetry in F. apply S in F. destruct F as (F & _).
  rewrite E, map_app in F. apply app_inv_tail in F. exact F.
Qed.

Definition reads {A} (p : list ltok -> lresult A) (Q : A -> list ltok -> Prop) (ns : A -> list node) : Prop :=
  forall ts a r, ordered ts -> p ts = LOk a r -> exists mid, ts = mid ++ r /\ good mid (ns a) /\ Q a mid.
Lemma ordered_mid m1 m2 m3 : ordered (m1 ++ m2 ++ m3) -> ordered m2 /\ ordered (m1 ++ m2) /\ ordered (m2 ++ m3).
Proof.
  intros H. pose proof H as H'. rewrite app_assoc in H'. apply ordered_app in H'. apply ordered_app in H. destruct H as (_ & H & _), H' as (H' & _).
  repeat split; try apply H'; try apply H; apply ordered_app in H; apply H.
Qed.
Lemma many0_reads {A} (item : list ltok -> lresult A) Q ns close : reads item Q ns -> forall fuel ts l r,
  ordered ts -> many0_at item close fuel ts = LOk l r ->
  exists mid, ts = mid ++ (P close, snd l) :: r /\ good mid (flat_map ns (fst l)).
Proof.
  intros R. induction fuel as [|fuel IH]; intros ts l r O; cbn [many0_at]; [discriminate|].
  destruct (next_if_punct_at close ts) as [[sp r0]|] eqn:E.
  - intros [= <- <-]. apply next_if_punct_at_inv in E. exists []. split; [exact E|]. apply good_nil.
  - intros H. apply lbind_ok in H. destruct H as (a & r1 & H1 & H). apply lbind_ok in H. destruct H as (l1 & r2 & H2 & [= <- <-]).
    destruct (R _ _ _ O H1) as (m1 & -> & G1 & _). destruct (IH _ _ _ (proj1 (proj2 (proj1 (ordered_app _ _) O))) H2) as (m2 & -> & G2).
    exists (m1 ++ m2). rewrite <- app_assoc. split; [reflexivity|]. cbn. apply good_app; auto. apply (ordered_mid [] (m1 ++ m2)) with (m3 := (P close, snd l1) :: r2). rewrite <- app_assoc. exact O.
Qed.
Lemma many1_reads {A} (item : list ltok -> lresult A) Q ns close : reads item Q ns -> forall fuel ts l r,
  ordered ts -> many1_at item close fuel ts = LOk l r ->
  exists mid, ts = mid ++ (P close, snd l) :: r /\ good mid (flat_map ns (fst l)).
Proof.
  intros R. induction fuel as [|fuel IH]; intros ts l r O; cbn [many1_at]; [discriminate|].
  intros H. apply lbind_ok in H. destruct H as (a & r1 & H1 & H). destruct (R _ _ _ O H1) as (m1 & -> & G1 & _).
  destruct (next_if_punct_at close r1) as [[sp r0]|] eqn:E.
  - injection H as <- <-. apply next_if_punct_at_inv in E as ->. exists m1. split; [reflexivity|]. cbn. rewrite app_nil_r. exact G1.
  - apply lbind_ok in H. destruct H as (l1 & r2 & H2 & [= <- <-]).
    destruct (IH _ _ _ (proj1 (proj2 (proj1 (ordered_app _ _) O))) H2) as (m2 & -> & G2).
    exists (m1 ++ m2). rewrite <- app_assoc. split; [reflexivity|]. cbn. apply good_app; auto. apply (ordered_mid [] (m1 ++ m2)) with (m3 := (P close, snd l1) :: r2). rewrite <- app_assoc. exact O.
Qed.
(** an opening token, something inside, a closing token, as one part *)
Lemma good_brackets o inner c n ns : ordered (o :: inner ++ [c]) -> node_span n = merge (snd o) (snd c) ->
  map fst (o :: inner ++ [c]) = node_tokens n -> good inner ns ->
  good (o :: inner ++ [c]) (n :: ns) /\ covers (o :: inner ++ [c]) (node_span n).
Proof.
  intros O S T G. assert (C : covers (o :: inner ++ [c]) (node_span n)).
  { rewrite S. apply (covers_merge _ _ _ [o] (inner ++ [c]) (o :: inner) [c] O (covers_one o) (covers_one c)); reflexivity. }
  split; [|exact C]. apply (good_outer o (inner ++ [c]) n [] (inner ++ [c]) ns); auto.
  - apply placed_all; auto.
  - apply covers_start in C. exact C.
  - exists []. reflexivity.
  - exact (good_wide [o] inner [c] ns G).
  - exact (good_wide [] inner [c] ns G).
Qed.
Lemma ordered_prefix a b : ordered (a ++ b) -> ordered a.
Proof. intros H. apply ordered_app in H. apply H. Qed.
Lemma ordered_suffix a b : ordered (a ++ b) -> ordered b.
Proof. intros H. apply ordered_app in H. apply H. Qed.
Lemma value_reads c : forall fuel, reads (parse_value_at c fuel) (fun v mid => covers mid (value_span v)) value_nodes.
Proof.
  induction fuel as [|fuel IH]; intros ts v r O H; [discriminate H|].
  assert (T : forall mid, ts = mid ++ r -> map fst mid = tk_value (plain_value v))
    by (intros mid; exact (read_tokens plain_value _ _ _ _ (forget_value c (S fuel)) (parse_value_sound c (S fuel)) ts v r mid H)).
  destruct ts as [|[t sp] ts]; [discriminate H|]. cbn [parse_value_at fst snd] in H.
  assert (L : forall w, value_span w = sp -> v = w -> (exists x, w = LVLeaf x sp) -> r = ts -> exists mid, (t, sp) :: ts = mid ++ r /\ good mid (value_nodes v) /\ covers mid (value_span v)).
  { intros w W -> (x & ->) ->. exists [(t, sp)]. split; [reflexivity|]. split; [|apply (covers_one (t, sp))]. specialize (T [(t, sp)] eq_refl). cbn in *.
    apply good_one; auto. change ((t, sp) :: ts) with ([(t, sp)] ++ ts) in O. exact (ordered_prefix _ _ O). }
  destruct t as [p| | | | |].
  - destruct p; try discriminate H.
    + apply lbind_ok in H. destruct H as (l & r1 & H & [= <- <-]). pose proof O as O'. apply ordered_cons in O'. destruct O' as (O' & _).
      destruct (many0_reads _ _ _ _ IH _ _ _ _ O' H) as (inner & -> & G). exists ((P POpenSquare, sp) :: inner ++ [(P PCloseSquare, snd l)]).
      split; [cbn; rewrite <- app_assoc; reflexivity|].
      apply (good_brackets (P POpenSquare, sp) inner (P PCloseSquare, snd l) (NValue (LVList (fst l) (merge sp (snd l)))) (flat_map value_nodes (fst l))); auto.
      * apply (ordered_prefix _ r1). cbn. rewrite <- app_assoc. exact O.
      * apply T. cbn. rewrite <- app_assoc. reflexivity.
    + apply lbind_ok in H. destruct H as (l & r1 & H & [= <- <-]). pose proof O as O'. apply ordered_cons in O'. destruct O' as (O' & _).
      assert (R : reads (fun ts' => dol (k, r1) <- expect_name_at ts'; dol (u, r2) <- expect_punct_at PColon r1;
                                    dol (v, r3) <- parse_value_at c fuel r2; LOk (k, v) r3)
                        (fun _ _ => True) (fun kv : lname * lvalue => NName (fst kv) :: value_nodes (snd kv))).
      { intros ts' kv r2 O2 H2. apply lbind_ok in H2. destruct H2 as (k & r3 & H3 & H2). apply lbind_ok in H2. destruct H2 as (u & r4 & H4 & H2).
        apply lbind_ok in H2. destruct H2 as (x & r5 & H5 & [= <- <-]). apply expect_name_at_inv in H3 as ->. apply expect_punct_at_inv in H4 as ->.
        destruct (IH _ _ _ (ordered_suffix [_; _] _ O2) H5) as (m & -> & G & _).
        exists ([(TkName (fst k), snd k)] ++ ((P PColon, u) :: m)). split; [reflexivity|]. split; [|exact I].
        change (NName (fst (k, x)) :: value_nodes (snd (k, x))) with ([NName k] ++ value_nodes x).
        pose proof (ordered_prefix ([(TkName (fst k), snd k)] ++ (P PColon, u) :: m) r5) as O3.
        assert (O4 : ordered ([(TkName (fst k), snd k)] ++ (P PColon, u) :: m)) by (apply O3; exact O2). clear O3.
        apply good_app; auto.
        - apply good_one; try reflexivity. exact (ordered_prefix _ _ O4).
        - pose proof (good_wide [(P PColon, u)] m [] _ G) as G'. rewrite app_nil_r in G'. exact G'. }
      destruct (many0_reads _ _ _ _ R _ _ _ _ O' H) as (inner & -> & G). exists ((P POpenBrace, sp) :: inner ++ [(P PCloseBrace, snd l)]).
      split; [cbn; rewrite <- app_assoc; reflexivity|].
      apply (good_brackets (P POpenBrace, sp) inner (P PCloseBrace, snd l) (NValue (LVObj (fst l) (merge sp (snd l)))) (flat_map (fun kv : lname * lvalue => NName (fst kv) :: value_nodes (snd kv)) (fst l))); auto.
      * apply (ordered_prefix _ r1). cbn. rewrite <- app_assoc. exact O.
      * apply T. cbn. rewrite <- app_assoc. reflexivity.
  - injection H as E1 E2. eapply L; [..|symmetry; exact E1|eauto|symmetry; exact E2]. reflexivity.
  - destruct c; [discriminate H|]. injection H as E1 E2. eapply L; [..|symmetry; exact E1|eauto|symmetry; exact E2]. reflexivity.
  - injection H as E1 E2. eapply L; [..|symmetry; exact E1|eauto|symmetry; exact E2]. reflexivity.
  - injection H as E1 E2. eapply L; [..|symmetry; exact E1|eauto|symmetry; exact E2]. reflexivity.
  - injection H as E1 E2. eapply L; [..|symmetry; exact E1|eauto|symmetry; exact E2]. reflexivity.
Qed.
Ltac pre r O := apply (ordered_prefix _ r); repeat (cbn [app] in * || rewrite <- app_assoc in * ); exact O.
Lemma good_none m : good m [].
Proof. split; [constructor|]. intros k. split; constructor. Qed.
Lemma good_skip t m ns : good m ns -> good (t :: m) ns.
Proof. intros G. pose proof (good_wide [t] m [] ns G) as H. rewrite app_nil_r in H. exact H. Qed.
Lemma good_name n m ns : ordered ((TkName (fst n), snd n) :: m) -> good m ns -> good ((TkName (fst n), snd n) :: m) (NName n :: ns).
Proof.
  intros O G. change ((TkName (fst n), snd n) :: m) with ([(TkName (fst n), snd n)] ++ m) in *. change (NName n :: ns) with ([NName n] ++ ns).
  apply good_app; auto. apply good_one; try reflexivity. exact (ordered_prefix _ _ O).
Qed.
Lemma argument_reads c : reads (parse_argument_at c) (fun a mid => covers mid (la_span a)) argument_nodes.
Proof.
  intros ts a r O H.
  assert (T : forall mid, ts = mid ++ r -> map fst mid = tk_argument (plain_argument a))
    by (intros mid; exact (read_tokens plain_argument _ _ _ _ (forget_argument c) (parse_argument_sound c) ts a r mid H)).
  unfold parse_argument_at in H. apply lbind_ok in H. destruct H as (k & r1 & H1 & H). apply lbind_ok in H. destruct H as (u & r2 & H2 & H).
  apply lbind_ok in H. destruct H as (v & r3 & H3 & [= <- <-]). apply expect_name_at_inv in H1 as ->. apply expect_punct_at_inv in H2 as ->.
  destruct (value_reads c _ _ _ _ (ordered_suffix [_; _] _ O) H3) as (m & -> & G & C).
  set (k' := (TkName (fst k), snd k)) in *. set (u' := (P PColon, u)) in *.
  assert (O1 : ordered (k' :: u' :: m)) by (pre r3 O).
  exists (k' :: u' :: m). split; [reflexivity|].
  assert (C' : covers (k' :: u' :: m) (merge (snd k) (value_span v))).
  { exact (covers_merge _ _ _ [k'] (u' :: m) [k'; u'] m O1 (covers_one k') C eq_refl eq_refl). }
  split; [|exact C']. apply (good_outer k' (u' :: m) (NArgument _) [NName k] m (value_nodes v)); auto.
  - apply placed_all; [|exact C']. apply T. reflexivity.
  - exact (covers_start _ _ _ C').
  - exists [u']. reflexivity.
  - apply good_name; auto using good_skip.
  - repeat constructor; discriminate.
Qed.
Lemma peek_punct_at_inv p ts : peek_punct_at p ts = true -> exists sp r, ts = (P p, sp) :: r.
Proof. destruct ts as [|[[] sp] ts]; cbn; try discriminate. intros E. apply punct_eqb_eq in E as ->. eauto. Qed.
Definition spans_opt (o : option span) (mid : list ltok) : Prop := match o with Some sp => covers mid sp | None => mid = [] end.
Lemma arguments_reads c : reads (parse_arguments_at c) (fun o mid => spans_opt (option_map snd o) mid) arguments_nodes.
Proof.
  intros ts a r O H.
  assert (T : forall mid, ts = mid ++ r -> map fst mid = tk_arguments (plain_arguments a))
    by (intros mid; exact (read_tokens plain_arguments _ _ _ _ (forget_arguments c) (parse_arguments_sound c) ts a r mid H)).
  unfold parse_arguments_at in H. destruct (peek_punct_at POpenRound ts); [|injection H as <- <-; exists []; split; [reflexivity|split; [apply good_nil|reflexivity]]].
  apply lbind_ok in H. destruct H as (o & r1 & H1 & H). apply lbind_ok in H. destruct H as (l & r2 & H2 & [= <- <-]).
  apply expect_punct_at_inv in H1 as ->. destruct (many1_reads _ _ _ _ (argument_reads c) _ _ _ _ (ordered_suffix [_] _ O) H2) as (inner & -> & G).
  exists ((P POpenRound, o) :: inner ++ [(P PCloseRound, snd l)]). split; [cbn; rewrite <- app_assoc; reflexivity|].
  apply (good_brackets (P POpenRound, o) inner (P PCloseRound, snd l) (NArguments (fst l, merge o (snd l))) (flat_map argument_nodes (fst l))); auto.
  - apply (ordered_prefix _ r2). cbn. rewrite <- app_assoc. exact O.
  - apply T. cbn. rewrite <- app_assoc. reflexivity.
Qed.
Lemma directive_reads c : reads (parse_directive_at c) (fun d mid => covers mid (ld_span d)) directive_nodes.
Proof.
  intros ts d r O H.
  assert (T : forall mid, ts = mid ++ r -> map fst mid = tk_directive (plain_directive d))
    by (intros mid; exact (read_tokens plain_directive _ _ _ _ (forget_directive c) (parse_directive_sound c) ts d r mid H)).
  unfold parse_directive_at in H. apply lbind_ok in H. destruct H as (a & r1 & H1 & H). apply lbind_ok in H. destruct H as (n & r2 & H2 & H).
  apply lbind_ok in H. destruct H as (args & r3 & H3 & [= <- <-]). apply expect_punct_at_inv in H1 as ->. apply expect_name_at_inv in H2 as ->.
  destruct (arguments_reads c _ _ _ (ordered_suffix [_; _] _ O) H3) as (m & -> & G & C).
  set (a' := (P PAt, a)) in *. set (n' := (TkName (fst n), snd n)) in *. assert (O1 : ordered (a' :: n' :: m)) by (pre r3 O).
  exists (a' :: n' :: m). split; [reflexivity|].
  assert (C' : covers (a' :: n' :: m) (match args with Some l => merge a (snd l) | None => merge a (snd n) end)).
  { destruct args as [l|]; cbn in C.
    - exact (covers_merge _ _ _ [a'] (n' :: m) [a'; n'] m O1 (covers_one a') C eq_refl eq_refl).
    - subst m. exact (covers_merge _ _ _ [a'] [n'] [a'] [n'] O1 (covers_one a') (covers_one n') eq_refl eq_refl). }
  split; [|exact C'].
  apply (good_outer a' (n' :: m) (NDirective _) [] (n' :: m) (NName n :: arguments_nodes args)); auto.
  - apply placed_all; [|exact C']. apply T. reflexivity.
  - exact (covers_start _ _ _ C').
  - exists []. reflexivity.
  - apply good_skip. apply good_name; auto. exact (ordered_suffix [_] _ O1).
  - apply good_name; auto. exact (ordered_suffix [_] _ O1).
Qed.
Lemma many_at_reads {A} (item : list ltok -> lresult A) (sp : A -> span) ns : reads item (fun a mid => covers mid (sp a)) ns -> forall fuel ts l r,
  ordered ts -> many_at_at item fuel ts = LOk l r ->
  exists mid, ts = mid ++ r /\ good mid (flat_map ns l) /\
    match l with
    | [] => mid = []
    | x :: rest => (exists m1 m2, mid = m1 ++ m2 /\ covers m1 (sp x)) /\ (exists m1 m2, mid = m1 ++ m2 /\ covers m2 (sp (last rest x)))
    end.
Proof.
  intros R. induction fuel as [|fuel IH]; intros ts l r O; cbn [many_at_at]; [discriminate|].
  destruct (peek_punct_at PAt ts); [|intros [= <- <-]; exists []; split; [reflexivity|]; split; [apply good_nil|reflexivity]].
  intros H. apply lbind_ok in H. destruct H as (a & r1 & H1 & H). apply lbind_ok in H. destruct H as (l1 & r2 & H2 & [= <- <-]).
  destruct (R _ _ _ O H1) as (m1 & -> & G1 & C1). destruct (IH _ _ _ (ordered_suffix _ _ O) H2) as (m2 & -> & G2 & C2).
  exists (m1 ++ m2). rewrite <- app_assoc. split; [reflexivity|]. split; [cbn; apply good_app; auto; pre r2 O|].
  split; [eauto|]. destruct l1 as [|y l1].
  - subst m2. rewrite app_nil_r. exists [], m1. split; [reflexivity|exact C1].
  - destruct C2 as (_ & p & q & -> & C2). exists (m1 ++ p), q. split; [rewrite app_assoc; reflexivity|].
    replace (last (y :: l1) a) with (last l1 y); [exact C2|]. clear. revert y. induction l1 as [|z l1 IH]; intros y; [reflexivity|]. cbn in *. destruct l1; auto.
Qed.
Lemma directives_reads c : reads (parse_directives_at c) (fun o mid => spans_opt (match o with Some l => snd l | None => None end) mid) directives_nodes.
Proof.
  intros ts a r O H.
  assert (T : forall mid, ts = mid ++ r -> map fst mid = tk_directives (plain_directives a))
    by (intros mid; exact (read_tokens plain_directives _ _ _ _ (forget_directives c) (parse_directives_sound c) ts a r mid H)).
  unfold parse_directives_at in H. destruct (peek_punct_at PAt ts) eqn:E; [|injection H as <- <-; exists []; split; [reflexivity|split; [apply good_nil|reflexivity]]].
  apply lbind_ok in H. destruct H as (l & r2 & H2 & [= <- <-]). destruct (many_at_reads _ _ _ (directive_reads c) _ _ _ _ O H2) as (mid & -> & G & C).
  exists mid. split; [reflexivity|]. destruct l as [|x rest]; [subst mid; split; [apply good_nil|reflexivity]|].
  destruct C as ((p1 & q1 & E1 & C1) & (p2 & q2 & E2 & C2)).
  assert (O1 : ordered mid) by exact (ordered_prefix _ _ O).
  assert (C : exists sp, directives_span (x :: rest) = Some sp /\ covers mid sp).
  { destruct rest as [|y rest].
    - eexists. split; [reflexivity|]. cbn in C2. pose proof (covers_merge mid _ _ p1 q1 p2 q2 O1 C1 C2 E1 E2) as K.
      replace (merge (ld_span x) (ld_span x)) with (ld_span x) in K; [exact K|]. unfold merge. destruct (ld_span x). cbn. rewrite Nat.min_id, Nat.max_id. reflexivity.
    - eexists. split; [reflexivity|]. exact (covers_merge mid _ _ p1 q1 p2 q2 O1 C1 C2 E1 E2). }
  destruct C as (sp & Es & C). unfold directives_nodes. rewrite Es. split; [|exact C].
  destruct (covers_nonempty _ _ C) as (t & m & ->). cbn [app].
  split.
  - constructor; [|exact (proj1 G)]. apply placed_all; [|exact C]. apply T. reflexivity.
  - intros k. destruct (proj2 G k) as (K1 & K2). change (NDirectives (x :: rest) sp :: flat_map directive_nodes (x :: rest)) with ([NDirectives (x :: rest) sp] ++ flat_map directive_nodes (x :: rest)).
    rewrite starts_app. unfold starts at 1 3. cbn [filter kind_of]. destruct (Nat.eqb_spec 6 k) as [<-|]; [|auto].
    assert (Z : starts 6 (flat_map directive_nodes (x :: rest)) = []).
    { generalize (x :: rest). clear. intros l.
      assert (ZV : forall v, starts 6 (value_nodes v) = []).
      { fix IH 1. intros [v sp|vs sp|es sp]; [reflexivity| |]; unfold starts; cbn [value_nodes filter kind_of Nat.eqb].
        - induction vs as [|v vs IHl]; [reflexivity|]. cbn [flat_map]. rewrite filter_app, map_app. unfold starts in IH. rewrite IH, IHl. reflexivity.
        - induction es as [|[k v] es IHl]; [reflexivity|]. cbn [flat_map]. rewrite filter_app, map_app. cbn [filter kind_of Nat.eqb snd fst]. unfold starts in IH. rewrite IH, IHl. reflexivity. }
      induction l as [|d l IH]; [reflexivity|]. cbn [flat_map]. rewrite starts_app, IH, app_nil_r. unfold starts, directive_nodes. cbn [filter kind_of Nat.eqb].
      destruct (ld_args d) as [[args sp]|]; [|reflexivity]. cbn [arguments_nodes filter kind_of Nat.eqb fst].
      induction args as [|a args IHa]; [reflexivity|]. cbn [flat_map]. rewrite filter_app, map_app, IHa, app_nil_r. unfold argument_nodes. cbn [filter kind_of Nat.eqb].
      exact (ZV (la_value a)). }
    rewrite Z. cbn. split; [repeat constructor|]. constructor; [|constructor]. left. symmetry. exact (covers_start _ _ _ C).
Qed.
Definition bang_tokens (b : option span) : list ltok := match b with Some sp => [(P PBang, sp)] | None => [] end.
Lemma parse_bang_at_inv ts b r : parse_bang_at ts = (b, r) -> ts = bang_tokens b ++ r.
Proof.
  unfold parse_bang_at. destruct (next_if_punct_at PBang ts) as [[sp r']|] eqn:E; intros [= <- <-]; [|reflexivity].
  apply next_if_punct_at_inv in E. exact E.
Qed.
Definition type_span (t : ltype) : span := match t with LTBase _ _ sp | LTList _ _ sp => sp end.
Lemma type_reads : forall fuel, reads (parse_type_at fuel) (fun t mid => covers mid (type_span t)) type_nodes.
Proof.
  induction fuel as [|fuel IH]; intros ts t r O H; [discriminate H|].
  assert (T : forall mid, ts = mid ++ r -> map fst mid = tk_tref (plain_type t))
    by (intros mid; exact (read_tokens plain_type _ _ _ _ (forget_type (S fuel)) (parse_tref_sound (S fuel)) ts t r mid H)).
  cbn [parse_type_at] in H. destruct (next_if_punct_at POpenSquare ts) as [[o r0]|] eqn:E.
  - apply next_if_punct_at_inv in E as ->. apply lbind_ok in H. destruct H as (i & r1 & H1 & H). apply lbind_ok in H. destruct H as (c & r2 & H2 & H).
    destruct (parse_bang_at r2) as [b r3] eqn:Eb. apply parse_bang_at_inv in Eb as ->. injection H as <- <-.
    destruct (IH _ _ _ (ordered_suffix [_] _ O) H1) as (inner & -> & G & _). apply expect_punct_at_inv in H2 as ->.
    set (o' := (P POpenSquare, o)) in *. set (c' := (P PCloseSquare, c)) in *.
    assert (O1 : ordered (o' :: inner ++ c' :: bang_tokens b)) by (pre r3 O).
    exists (o' :: inner ++ c' :: bang_tokens b). split; [cbn; rewrite <- app_assoc; reflexivity|].
    assert (C : covers (o' :: inner ++ c' :: bang_tokens b) (merge o (match b with Some b => b | None => c end))).
    { destruct b as [b|]; cbn [bang_tokens] in *.
      - apply (covers_merge _ _ _ [o'] (inner ++ [c'; (P PBang, b)]) (o' :: inner ++ [c']) [(P PBang, b)] O1 (covers_one o') (covers_one (P PBang, b))); [reflexivity|].
        cbn. rewrite <- app_assoc. reflexivity.
      - exact (covers_merge _ _ _ [o'] (inner ++ [c']) (o' :: inner) [c'] O1 (covers_one o') (covers_one c') eq_refl eq_refl). }
    split; [|exact C]. apply (good_outer o' (inner ++ c' :: bang_tokens b) (NType _) [] (inner ++ c' :: bang_tokens b) (type_nodes i)); auto.
    + apply placed_all; [|exact C]. apply T. cbn. rewrite <- app_assoc. reflexivity.
    + exact (covers_start _ _ _ C).
    + exists []. reflexivity.
    + exact (good_wide [o'] inner (c' :: bang_tokens b) _ G).
    + exact (good_wide [] inner (c' :: bang_tokens b) _ G).
  - destruct (next_if_name_at ts) as [[n r0]|] eqn:En; [|destruct ts; discriminate H]. apply next_if_name_at_inv in En as ->.
    destruct (parse_bang_at r0) as [b r1] eqn:Eb. apply parse_bang_at_inv in Eb as ->. injection H as <- <-.
    set (n' := (TkName (fst n), snd n)) in *. assert (O1 : ordered (n' :: bang_tokens b)) by (pre r1 O).
    exists (n' :: bang_tokens b). split; [reflexivity|].
    assert (C : covers (n' :: bang_tokens b) (match b with Some b => merge (snd n) b | None => snd n end)).
    { destruct b as [b|]; cbn [bang_tokens] in *; [|exact (covers_one n')].
      exact (covers_merge _ _ _ [n'] [(P PBang, b)] [n'] [(P PBang, b)] O1 (covers_one n') (covers_one (P PBang, b)) eq_refl eq_refl). }
    split; [|exact C]. apply (good_outer n' (bang_tokens b) (NType _) [NName n] (bang_tokens b) []); auto using good_none.
    + apply placed_all; [|exact C]. apply T. reflexivity.
    + exact (covers_start _ _ _ C).
    + exists []. reflexivity.
    + apply good_name; auto using good_none.
    + repeat constructor; discriminate.
Qed.
Lemma default_reads : reads parse_default_at (fun _ _ => True) (fun o => match o with Some d => value_nodes d | None => [] end).
Proof.
  intros ts o r O H. unfold parse_default_at in H. destruct (next_if_punct_at PEquals ts) as [[sp r0]|] eqn:E.
  - apply next_if_punct_at_inv in E as ->. apply lbind_ok in H. destruct H as (v & r1 & H & [= <- <-]).
    destruct (value_reads true _ _ _ _ (ordered_suffix [_] _ O) H) as (m & -> & G & _). exists ((P PEquals, sp) :: m). split; [reflexivity|]. split; [apply good_skip; exact G|exact I].
  - injection H as <- <-. exists []. split; [reflexivity|]. split; [apply good_nil|exact I].
Qed.
Lemma vardef_reads : reads parse_vardef_at (fun _ _ => True) vardef_nodes.
Proof.
  intros ts v r O H. unfold parse_vardef_at in H. apply lbind_ok in H. destruct H as (n & r1 & H1 & H). apply lbind_ok in H. destruct H as (u & r2 & H2 & H).
  apply lbind_ok in H. destruct H as (t & r3 & H3 & H). apply lbind_ok in H. destruct H as (d & r4 & H4 & H). apply lbind_ok in H. destruct H as (ds & r5 & H5 & [= <- <-]).
  apply expect_variable_at_inv in H1 as ->. apply expect_punct_at_inv in H2 as ->. set (n' := (TkVar (fst n), snd n)) in *. set (u' := (P PColon, u)) in *.
  pose proof (ordered_suffix [_; _] _ O) as O1. destruct (type_reads _ _ _ _ O1 H3) as (m1 & -> & G1 & _).
  pose proof (ordered_suffix _ _ O1) as O2. destruct (default_reads _ _ _ O2 H4) as (m2 & -> & G2 & _).
  pose proof (ordered_suffix _ _ O2) as O3. destruct (directives_reads true _ _ _ O3 H5) as (m3 & -> & G3 & _).
  assert (O4 : ordered (n' :: u' :: m1 ++ m2 ++ m3)) by (pre r5 O).
  exists (n' :: u' :: m1 ++ m2 ++ m3). split; [cbn; rewrite <- !app_assoc; reflexivity|]. split; [|exact I].
  change (n' :: u' :: m1 ++ m2 ++ m3) with ([n'] ++ (u' :: m1 ++ m2 ++ m3)) in *.
  apply (good_app [n'] (u' :: m1 ++ m2 ++ m3) [NVariable n]); auto.
  - apply good_one; try reflexivity. exact (ordered_prefix _ _ O4).
  - pose proof (ordered_suffix [n'; u'] (m1 ++ m2 ++ m3) O4) as O5. apply good_skip. apply good_app; auto. apply good_app; auto. exact (ordered_suffix _ _ O5).
Qed.
Lemma vardefs_reads : reads parse_vardefs_at (fun _ _ => True) vardefs_nodes.
Proof.
  intros ts a r O H.
  assert (T : forall mid, ts = mid ++ r -> map fst mid = tk_vardefs (plain_vardefs a))
    by (intros mid; exact (read_tokens plain_vardefs _ _ _ _ forget_vardefs parse_vardefs_sound ts a r mid H)).
  unfold parse_vardefs_at in H. destruct (peek_punct_at POpenRound ts); [|injection H as <- <-; exists []; split; [reflexivity|split; [apply good_nil|exact I]]].
  apply lbind_ok in H. destruct H as (o & r1 & H1 & H). apply lbind_ok in H. destruct H as (l & r2 & H2 & [= <- <-]).
  apply expect_punct_at_inv in H1 as ->. destruct (many1_reads _ _ _ _ vardef_reads _ _ _ _ (ordered_suffix [_] _ O) H2) as (inner & -> & G).
  exists ((P POpenRound, o) :: inner ++ [(P PCloseRound, snd l)]). split; [cbn; rewrite <- app_assoc; reflexivity|]. split; [|exact I].
  apply (good_brackets (P POpenRound, o) inner (P PCloseRound, snd l) (NVardefs (fst l, merge o (snd l))) (flat_map vardef_nodes (fst l))); auto.
  - apply (ordered_prefix _ r2). cbn. rewrite <- app_assoc. exact O.
  - apply T. cbn. rewrite <- app_assoc. reflexivity.
Qed.
Lemma condition_reads ts c r : parse_condition_at ts = LOk c r -> exists sp, ts = (TkName (tx "on"), sp) :: (TkName (fst c), snd c) :: r.
Proof.
  unfold parse_condition_at. intros H. apply lbind_ok in H. destruct H as (u & r1 & H1 & H). apply expect_name_value_at_inv in H1 as ->.
  apply expect_name_at_inv in H as ->. eauto.
Qed.
(** the selection sets, with what is inside the braces *)
Lemma set_reads item item' : (forall ts, forget plain_selection (item ts) = item' (map fst ts)) -> sound item' tk_selection selection_ok ->
  reads item (fun _ _ => True) selection_nodes ->
  reads (parse_set_with_at item) (fun s mid => covers mid (snd s) /\ exists o inner, mid = o :: inner /\ good inner (flat_map selection_nodes (fst s))) set_nodes.
Proof.
  intros F Sd R ts s r O H.
  assert (T : forall mid, ts = mid ++ r -> map fst mid = tk_set (plain_set s))
    by (intros mid; exact (read_tokens plain_set _ _ _ _ (fun ts => forget_set_with item item' ts F) (parse_set_with_sound item' Sd) ts s r mid H)).
  unfold parse_set_with_at in H. apply lbind_ok in H. destruct H as (o & r1 & H1 & H). apply lbind_ok in H. destruct H as (l & r2 & H2 & [= <- <-]).
  apply expect_punct_at_inv in H1 as ->. destruct (many1_reads _ _ _ _ R _ _ _ _ (ordered_suffix [_] _ O) H2) as (inner & -> & G).
  set (o' := (P POpenBrace, o)) in *. set (c' := (P PCloseBrace, snd l)) in *.
  exists (o' :: inner ++ [c']). split; [cbn; rewrite <- app_assoc; reflexivity|].
  destruct (good_brackets o' inner c' (NSet (fst l, merge o (snd l))) (flat_map selection_nodes (fst l))) as (G' & C); auto.
  - apply (ordered_prefix _ r2). cbn. rewrite <- app_assoc. exact O.
  - apply T. cbn. rewrite <- app_assoc. reflexivity.
  - split; [exact G'|]. split; [exact C|]. exists o', (inner ++ [c']). split; [reflexivity|]. exact (good_wide [] inner [c'] _ G).
Qed.
Lemma good_names al m ns : ordered (match al with Some n => (TkName (fst n), snd n) :: m | None => m end) -> good m ns ->
  good (match al with Some n => (TkName (fst n), snd n) :: m | None => m end) (name_nodes al ++ ns).
Proof. destruct al as [n|]; cbn; intros O G; [apply good_name; auto|exact G]. Qed.
Lemma names_kind k al n ns : k <> 0 -> (forall x, In x ns -> kind_of x <> k) -> Forall (fun x => kind_of x <> k) (name_nodes al ++ NName n :: ns).
Proof. intros H H'. apply Forall_app. split; [destruct al; repeat constructor; cbn; auto|]. constructor; [cbn; auto|]. apply Forall_forall. exact H'. Qed.
Lemma selection_reads : forall fuel, reads (parse_selection_at fuel) (fun _ _ => True) selection_nodes.
Proof.
  induction fuel as [|fuel IH]; intros ts s r O H; [discriminate H|].
  assert (T : forall mid, ts = mid ++ r -> map fst mid = tk_selection (plain_selection s))
    by (intros mid; exact (read_tokens plain_selection _ _ _ _ (forget_selection (S fuel)) (parse_selection_sound (S fuel)) ts s r mid H)).
  pose proof (set_reads (parse_selection_at fuel) (parse_selection fuel) (forget_selection fuel) (parse_selection_sound fuel) IH) as SR.
  destruct ts as [|[t sp] rest]; [discriminate H|]. cbn [parse_selection_at] in H. destruct t as [p|s0| | | |]; try discriminate H.
  - destruct p; try discriminate H.
    destruct (match rest with (TkName n, _) :: _ => negb (teqb n (tx "on")) | _ => false end).
    + (* spread *)
      apply lbind_ok in H. destruct H as (n & r1 & H1 & H). apply expect_name_at_inv in H1 as ->. destruct (teqb (fst n) (tx "on")); [discriminate H|].
      apply lbind_ok in H. destruct H as (ds & r2 & H2 & [= <- <-]). destruct (directives_reads false _ _ _ (ordered_suffix [_; _] _ O) H2) as (m & -> & G & _).
      set (e := (TkPunct PEllipse, sp)) in *. set (n' := (TkName (fst n), snd n)) in *. assert (O1 : ordered (e :: n' :: m)) by (pre r2 O).
      assert (C : covers [e; n'] (merge sp (snd n))).
      { refine (covers_merge _ _ _ [e] [n'] [e] [n'] _ (covers_one e) (covers_one n') eq_refl eq_refl). exact (ordered_prefix [e; n'] m O1). }
      exists (e :: n' :: m). split; [reflexivity|]. split; [|exact I].
      apply (good_outer e (n' :: m) (NSelection (LSpread n ds (merge sp (snd n)))) [] (n' :: m) (NName n :: directives_nodes ds)); auto.
      * exists [], [e; n'], m. repeat split; auto.
      * exact (covers_start _ _ _ C).
      * exists []. reflexivity.
      * apply good_skip, good_name; auto. exact (ordered_suffix [_] _ O1).
      * apply good_name; auto. exact (ordered_suffix [_] _ O1).
    + (* inline fragment *)
      apply lbind_ok in H. destruct H as (c & r1 & H1 & H). apply lbind_ok in H. destruct H as (ds & r2 & H2 & H). apply lbind_ok in H. destruct H as (sub & r3 & H3 & [= <- <-]).
      assert (E : exists mc, rest = mc ++ r1 /\ forall m ns, ordered (mc ++ m) -> good m ns -> good (mc ++ m) (name_nodes c ++ ns)).
      { destruct (peek_name_matches_at (tx "on") rest).
        - apply lbind_ok in H1. destruct H1 as (c0 & r4 & H1 & [= <- <-]). apply condition_reads in H1. destruct H1 as (u & ->).
          exists [(TkName (tx "on"), u); (TkName (fst c0), snd c0)]. split; [reflexivity|]. intros m ns Om Gm. cbn. apply good_skip, good_name; auto. exact (ordered_suffix [_] _ Om).
        - injection H1 as <- <-. exists []. split; [reflexivity|]. auto. }
      destruct E as (mc & -> & Gc). set (e := (TkPunct PEllipse, sp)) in *.
      pose proof (ordered_suffix (e :: mc) r1 O) as O1. destruct (directives_reads false _ _ _ O1 H2) as (md & -> & Gd & _).
      pose proof (ordered_suffix _ _ O1) as O2. destruct (SR _ _ _ O2 H3) as (ms & -> & Gs & Cs & _).
      assert (O3 : ordered (e :: mc ++ md ++ ms)) by (pre r3 O). pose proof (ordered_suffix [e] (mc ++ md ++ ms) O3) as O4. pose proof (ordered_suffix mc _ O4) as O5.
      assert (C : covers (e :: mc ++ md ++ ms) (merge sp (snd sub))).
      { apply (covers_merge _ _ _ [e] (mc ++ md ++ ms) (e :: mc ++ md) ms O3 (covers_one e) Cs); [reflexivity|]. cbn. rewrite <- app_assoc. reflexivity. }
      assert (G : good (mc ++ md ++ ms) (name_nodes c ++ directives_nodes ds ++ set_nodes sub)) by (apply Gc; auto; apply good_app; auto).
      exists (e :: mc ++ md ++ ms). split; [cbn; rewrite <- !app_assoc; reflexivity|]. split; [|exact I].
      apply (good_outer e (mc ++ md ++ ms) (NSelection (LInline c ds sub (merge sp (snd sub)))) [] (mc ++ md ++ ms) (name_nodes c ++ directives_nodes ds ++ set_nodes sub)); auto using good_skip.
      * apply placed_all; [|exact C]. apply T. cbn. rewrite <- !app_assoc. reflexivity.
      * exact (covers_start _ _ _ C).
      * exists []. reflexivity.
  - (* field *)
    apply lbind_ok in H. destruct H as (p & r1 & H1 & H). apply lbind_ok in H. destruct H as (args & r2 & H2 & H). apply lbind_ok in H. destruct H as (ds & r3 & H3 & H).
    apply lbind_ok in H. destruct H as (sub & r4 & H4 & [= <- <-]). destruct p as [al n]. cbn [fst snd] in *.
    set (n' := (TkName (fst n), snd n)) in *.
    assert (E : exists t0 mn, (TkName s0, sp) :: rest = t0 :: mn ++ r1 /\ tstart t0 = fst (snd (match al with Some a => a | None => n end)) /\
                snd t0 = snd (match al with Some a => a | None => n end) /\ (exists l, t0 :: mn = l ++ [n']) /\
                forall m ns, ordered (t0 :: mn ++ m) -> good m ns -> good (t0 :: mn ++ m) (name_nodes al ++ NName n :: ns)).
    { destruct (peek_punct_at PColon rest).
      - apply lbind_ok in H1. destruct H1 as (a0 & r5 & H5 & H1). apply lbind_ok in H1. destruct H1 as (u & r6 & H6 & H1). apply lbind_ok in H1. destruct H1 as (n0 & r7 & H7 & [= <- <- <-]).
        apply expect_name_at_inv in H5. injection H5 as -> -> ->. apply expect_punct_at_inv in H6 as ->. apply expect_name_at_inv in H7 as ->.
        exists (TkName (fst a0), snd a0), [(P PColon, u); n']. split; [reflexivity|]. split; [reflexivity|]. split; [reflexivity|]. split; [exists [(TkName (fst a0), snd a0); (P PColon, u)]; reflexivity|].
        intros m ns Om Gm. cbn in *. apply good_name; auto. apply good_skip, good_name; auto. exact (ordered_suffix [_; _] _ Om).
      - apply lbind_ok in H1. destruct H1 as (n0 & r5 & H5 & [= <- <- <-]). apply expect_name_at_inv in H5. injection H5 as -> -> ->.
        exists n', []. split; [reflexivity|]. split; [reflexivity|]. split; [reflexivity|]. split; [exists []; reflexivity|].
        intros m ns Om Gm. cbn in *. apply good_name; auto. }
    destruct E as (t0 & mn & E & St & Sp & (ln & Ln) & Gn). assert (O' : ordered (t0 :: mn ++ r1)) by exact (eq_ind _ ordered O _ E). assert (T' := fun mid (Hm : t0 :: mn ++ r1 = mid ++ r4) => T mid (eq_trans E Hm)). clear O T H1. rename E into E0. rename O' into O. rename T' into T.
    pose proof (ordered_suffix (t0 :: mn) r1 O) as O1. destruct (arguments_reads false _ _ _ O1 H2) as (ma & -> & Ga & Ca).
    pose proof (ordered_suffix _ _ O1) as O2. destruct (directives_reads false _ _ _ O2 H3) as (md & -> & Gd & Cd).
    pose proof (ordered_suffix _ _ O2) as O3.
    assert (E : exists ms, r3 = ms ++ r4 /\ good ms (match sub with Some l => NSet l :: flat_map selection_nodes (fst l) | None => [] end) /\ spans_opt (option_map snd sub) ms).
    { destruct (peek_punct_at POpenBrace r3).
      - apply lbind_ok in H4. destruct H4 as (l & r5 & H5 & [= <- <-]). destruct (SR _ _ _ O3 H5) as (ms & -> & Gs & Cs & _). exists ms. split; [reflexivity|]. split; [exact Gs|exact Cs].
      - injection H4 as <- <-. exists []. split; [reflexivity|]. split; [apply good_nil|reflexivity]. }
    destruct E as (ms & -> & Gs & Cs).
    assert (O4 : ordered (t0 :: mn ++ ma ++ md ++ ms)) by (pre r4 O). pose proof (ordered_suffix (t0 :: mn) (ma ++ md ++ ms) O4) as O5. pose proof (ordered_suffix ma _ O5) as O6.
    assert (C : covers (t0 :: mn ++ ma ++ md ++ ms) (merge (snd (match al with Some a => a | None => n end)) (field_end n args ds sub))).
    { rewrite <- Sp. assert (Z : exists l3 m3, t0 :: mn ++ ma ++ md ++ ms = l3 ++ m3 /\ covers m3 (field_end n args ds sub)).
      { unfold field_end. destruct sub as [sub|]; cbn in Cs.
        - exists (t0 :: mn ++ ma ++ md), ms. split; [cbn; rewrite <- !app_assoc; reflexivity|exact Cs].
        - subst ms. rewrite app_nil_r.
          assert (Y : md = [] -> exists l3 m3, t0 :: mn ++ ma ++ md = l3 ++ m3 /\ covers m3 (match args with Some l => snd l | None => snd n end)).
          { intros ->. rewrite app_nil_r. destruct args as [a|]; cbn in Ca.
            - exists (t0 :: mn), ma. split; [reflexivity|exact Ca].
            - subst ma. rewrite app_nil_r. exists ln, [n']. split; [exact Ln|exact (covers_one n')]. }
          destruct ds as [[dl [dsp|]]|]; cbn in Cd; auto. cbn.
          exists (t0 :: mn ++ ma), md. split; [cbn; rewrite <- !app_assoc; reflexivity|exact Cd]. }
      destruct Z as (l3 & m3 & E3 & C3). exact (covers_merge _ _ _ [t0] (mn ++ ma ++ md ++ ms) l3 m3 O4 (covers_one t0) C3 eq_refl E3). }
    exists (t0 :: mn ++ ma ++ md ++ ms). split; [refine (eq_trans E0 _); cbn; rewrite <- !app_assoc; reflexivity|]. split; [|exact I].
    assert (G2 : good (ma ++ md ++ ms) (arguments_nodes args ++ directives_nodes ds ++ match sub with Some l => NSet l :: flat_map selection_nodes (fst l) | None => [] end))
      by (apply good_app; auto; apply good_app; auto).
    pose proof (good_outer t0 (mn ++ ma ++ md ++ ms)
      (NSelection (LField al n args ds sub (merge (snd (match al with Some a => a | None => n end)) (field_end n args ds sub))))
      (name_nodes al ++ [NName n]) (ma ++ md ++ ms)
      (arguments_nodes args ++ directives_nodes ds ++ match sub with Some l => NSet l :: flat_map selection_nodes (fst l) | None => [] end)) as K.
    rewrite <- app_assoc in K. cbn [app] in K. apply K; auto.
    + apply placed_all; [|exact C]. apply T. cbn. rewrite <- !app_assoc. reflexivity.
    + exact (covers_start _ _ _ C).
    + exists mn. reflexivity.
    + apply names_kind; [discriminate|]. intros x [].
Qed.
Lemma read_tokens' {A B} (f : A -> B) p p' (tk : B -> list token) : (forall ts, forget f (p ts) = p' (map fst ts)) ->
  (forall ts b r, p' ts = POk b r -> ts = tk b ++ r) ->
  forall ts a r mid, p ts = LOk a r -> ts = mid ++ r -> map fst mid = tk (f a).
Proof.
  intros F S ts a r mid H E. specialize (F ts). rewrite H in F. cbn in F. symmetry in F. apply S in F.
  rewrite E, map_app in F. apply app_inv_tail in F. exact F.
Qed.
Lemma parse_set_reads : reads parse_set_at (fun s mid => covers mid (snd s) /\ exists o inner, mid = o :: inner /\ good inner (flat_map selection_nodes (fst s))) set_nodes.
Proof.
  intros ts s r O H. unfold parse_set_at in H.
  exact (set_reads _ _ (forget_selection (S (length ts))) (parse_selection_sound (S (length ts))) (selection_reads (S (length ts))) ts s r O H).
Qed.
Lemma operation_reads : reads parse_operation_at (fun _ mid => mid <> []) operation_nodes.
Proof.
  intros ts o r O H.
  assert (T : forall mid, ts = mid ++ r -> map fst mid = tk_operation (plain_operation o)).
  { intros mid. refine (read_tokens' plain_operation _ _ tk_operation forget_operation _ ts o r mid H). intros ts' b r' Hb. apply parse_operation_sound in Hb. apply Hb. }
  unfold parse_operation_at in H. destruct (peek_optype_at ts).
  - apply lbind_ok in H. destruct H as (n0 & r0 & H0 & H). apply expect_name_at_inv in H0 as ->. destruct (optype_of (fst n0)) as [ty|] eqn:Ey; [|discriminate H].
    apply optype_of_inv in Ey.
    destruct (match next_if_name_at r0 with Some (n, r1) => (Some n, r1) | None => (None, r0) end) as [n r1] eqn:En.
    assert (E : exists mn, r0 = mn ++ r1 /\ forall m ns, ordered (mn ++ m) -> good m ns -> good (mn ++ m) (name_nodes n ++ ns)).
    { destruct (next_if_name_at r0) as [[n1 r2]|] eqn:E1; injection En as <- <-.
      - apply next_if_name_at_inv in E1 as ->. exists [(TkName (fst n1), snd n1)]. split; [reflexivity|]. intros m ns Om Gm. cbn. apply good_name; auto.
      - exists []. split; [reflexivity|]. auto. }
    destruct E as (mn & -> & Gn). clear En. set (t := (TkName (fst n0), snd n0)) in *.
    apply lbind_ok in H. destruct H as (vs & r2 & H1 & H). apply lbind_ok in H. destruct H as (ds & r3 & H2 & H). apply lbind_ok in H. destruct H as (sub & r4 & H3 & [= <- <-]).
    pose proof (ordered_suffix (t :: mn) r1 O) as O1. destruct (vardefs_reads _ _ _ O1 H1) as (mv & -> & Gv & _).
    pose proof (ordered_suffix _ _ O1) as O2. destruct (directives_reads false _ _ _ O2 H2) as (md & -> & Gd & _).
    pose proof (ordered_suffix _ _ O2) as O3. destruct (parse_set_reads _ _ _ O3 H3) as (ms & -> & Gs & Cs & _).
    assert (O4 : ordered (t :: mn ++ mv ++ md ++ ms)) by (pre r4 O). pose proof (ordered_suffix [t] (mn ++ mv ++ md ++ ms) O4) as O5.
    pose proof (ordered_suffix mn _ O5) as O6. pose proof (ordered_suffix mv _ O6) as O7.
    assert (C : covers (t :: mn ++ mv ++ md ++ ms) (merge (snd n0) (snd sub))).
    { apply (covers_merge _ _ _ [t] (mn ++ mv ++ md ++ ms) (t :: mn ++ mv ++ md) ms O4 (covers_one t) Cs); [reflexivity|]. cbn. rewrite <- !app_assoc. reflexivity. }
    assert (G : good (mn ++ mv ++ md ++ ms) (name_nodes n ++ vardefs_nodes vs ++ directives_nodes ds ++ set_nodes sub)).
    { apply Gn; auto. apply good_app; auto. apply good_app; auto. }
    exists (t :: mn ++ mv ++ md ++ ms). split; [cbn; rewrite <- !app_assoc; reflexivity|]. split; [|discriminate].
    apply (good_outer t (mn ++ mv ++ md ++ ms) (NOperation (LExplicit ty (snd n0) n vs ds sub (merge (snd n0) (snd sub)))) [NOptype ty (snd n0)]
             (mn ++ mv ++ md ++ ms) (name_nodes n ++ vardefs_nodes vs ++ directives_nodes ds ++ set_nodes sub)); auto.
    + apply placed_all; [|exact C]. apply T. cbn. rewrite <- !app_assoc. reflexivity.
    + exact (covers_start _ _ _ C).
    + exists []. reflexivity.
    + change (t :: mn ++ mv ++ md ++ ms) with ([t] ++ (mn ++ mv ++ md ++ ms)) in *. apply (good_app [t]); auto. apply good_one; try reflexivity.
      * exact (ordered_prefix _ _ O4).
      * cbn. rewrite Ey. reflexivity.
    + repeat constructor. discriminate.
  - destruct (peek_punct_at POpenBrace ts); [|destruct ts; discriminate H].
    apply lbind_ok in H. destruct H as (sub & r1 & H & [= <- <-]). destruct (parse_set_reads _ _ _ O H) as (ms & -> & Gs & Cs & (o' & inner & -> & Gi)).
    exists (o' :: inner). split; [reflexivity|]. split; [|discriminate].
    apply (good_outer o' inner (NOperation (LImplicit sub)) [NSet sub] inner (flat_map selection_nodes (fst sub))); auto.
    + exact (ordered_prefix _ _ O).
    + apply placed_all; [|exact Cs]. apply T. reflexivity.
    + exact (covers_start _ _ _ Cs).
    + exists []. reflexivity.
    + repeat constructor. discriminate.
Qed.
Lemma fragment_reads : reads parse_fragment_at (fun _ mid => mid <> []) fragment_nodes.
Proof.
  intros ts f r O H.
  assert (T : forall mid, ts = mid ++ r -> map fst mid = tk_fragment (plain_fragment f)).
  { intros mid. refine (read_tokens' plain_fragment _ _ tk_fragment forget_fragment _ ts f r mid H). intros ts' b r' Hb. apply parse_fragment_sound in Hb. apply Hb. }
  unfold parse_fragment_at in H. apply lbind_ok in H. destruct H as (w & r0 & H0 & H). apply lbind_ok in H. destruct H as (n & r1 & H1 & H).
  apply expect_name_value_at_inv in H0 as ->. apply expect_name_at_inv in H1 as ->. destruct (teqb (fst n) (tx "on")); [discriminate H|].
  apply lbind_ok in H. destruct H as (c & r2 & H2 & H). apply condition_reads in H2. destruct H2 as (u & ->).
  apply lbind_ok in H. destruct H as (ds & r3 & H3 & H). apply lbind_ok in H. destruct H as (sub & r4 & H4 & [= <- <-]).
  set (w' := (TkName (tx "fragment"), w)) in *. set (n' := (TkName (fst n), snd n)) in *. set (u' := (TkName (tx "on"), u)) in *. set (c' := (TkName (fst c), snd c)) in *.
  pose proof (ordered_suffix [w'; n'; u'; c'] r2 O) as O1. destruct (directives_reads false _ _ _ O1 H3) as (md & -> & Gd & _).
  pose proof (ordered_suffix _ _ O1) as O2. destruct (parse_set_reads _ _ _ O2 H4) as (ms & -> & Gs & Cs & _).
  assert (O4 : ordered (w' :: n' :: u' :: c' :: md ++ ms)) by (pre r4 O).
  pose proof (ordered_suffix [w'] (n' :: u' :: c' :: md ++ ms) O4) as O5. pose proof (ordered_suffix [n'; u'] (c' :: md ++ ms) O5) as O6. pose proof (ordered_suffix [c'] (md ++ ms) O6) as O7.
  assert (C : covers (w' :: n' :: u' :: c' :: md ++ ms) (merge w (snd sub))).
  { exact (covers_merge _ _ _ [w'] (n' :: u' :: c' :: md ++ ms) (w' :: n' :: u' :: c' :: md) ms O4 (covers_one w') Cs eq_refl eq_refl). }
  assert (G : good (n' :: u' :: c' :: md ++ ms) (NName n :: NName c :: directives_nodes ds ++ set_nodes sub)).
  { apply good_name; auto. apply good_skip, good_name; auto. apply good_app; auto. }
  exists (w' :: n' :: u' :: c' :: md ++ ms). split; [cbn; rewrite <- !app_assoc; reflexivity|]. split; [|discriminate].
  apply (good_outer w' (n' :: u' :: c' :: md ++ ms) (NFragment _) [] (n' :: u' :: c' :: md ++ ms) (NName n :: NName c :: directives_nodes ds ++ set_nodes sub)); auto using good_skip.
  - apply placed_all; [|exact C]. apply T. cbn. rewrite <- !app_assoc. reflexivity.
  - exact (covers_start _ _ _ C).
  - exists []. reflexivity.
Qed.
Lemma try_reads ts x r : ordered ts -> try_definition_at ts = Some (LOk x r) -> exists mid, ts = mid ++ r /\ good mid (definition_nodes x).
Proof.
  intros O. unfold try_definition_at. destruct (peek_optype_at ts || peek_punct_at POpenBrace ts); [|destruct (peek_name_matches_at (tx "fragment") ts); [|discriminate]];
    intros [= H]; apply lbind_ok in H; destruct H as (y & r' & H & [= <- <-]).
  - destruct (operation_reads _ _ _ O H) as (mid & -> & G & _). eauto.
  - destruct (fragment_reads _ _ _ O H) as (mid & -> & G & _). eauto.
Qed.
Lemma loop_errs fuel : forall ts d errs b, exists more, snd (document_loop_at fuel ts d errs b) = errs ++ more.
Proof.
  induction fuel as [|fuel IH]; intros ts d errs b; cbn [document_loop_at]; [eexists; reflexivity|].
  assert (K : forall ts' d' e b', exists more, snd (document_loop_at fuel ts' d' (if b then errs else errs ++ [e]) b') = errs ++ more).
  { intros ts' d' e b'. destruct b; [apply IH|]. destruct (IH ts' d' (errs ++ [e]) b') as (m & ->). rewrite <- app_assoc. eauto. }
  destruct (try_definition_at ts) as [[x r|e r]|]; auto. destruct ts as [|t r]; auto. exists []. rewrite app_nil_r. reflexivity.
Qed.
Lemma loop_reads all : ordered all -> forall fuel ts d d' read, all = read ++ ts -> good read (document_nodes d) ->
  document_loop_at fuel ts d [] false = (d', []) -> good all (document_nodes d').
Proof.
  intros O. induction fuel as [|fuel IH]; intros ts d d' read E G; cbn [document_loop_at]; [discriminate|].
  assert (K : forall ts' e, document_loop_at fuel ts' d ([] ++ [e]) true <> (d', [])).
  { intros ts' e H. destruct (loop_errs fuel ts' d ([] ++ [e]) true) as (more & Hm). rewrite H in Hm. discriminate Hm. }
  destruct (try_definition_at ts) as [[x r|e r]|] eqn:Et.
  - rewrite E in O. destruct (try_reads ts x r (ordered_suffix _ _ O) Et) as (mid & -> & Gm). rewrite E in *. clear E.
    apply IH with (read := read ++ mid); [rewrite <- app_assoc; reflexivity|]. unfold document_nodes. rewrite flat_map_app. cbn [flat_map]. rewrite app_nil_r.
    apply good_app; auto. rewrite app_assoc in O. exact (ordered_prefix _ _ O).
  - intros H. destruct (K _ _ H).
  - destruct ts as [|t r].
    + intros [= <-]. rewrite E, app_nil_r. exact G.
    + intros H. destruct (K _ _ H).
Qed.
Lemma document_reads eof items d : ordered (items_at items) -> parse_document_at eof items = inl d ->
  lexing_errors items = [] /\ good (items_at items) (document_nodes d).
Proof.
  intros O. unfold parse_document_at. destruct (document_loop_at _ _ _ _ _) as [d' errs] eqn:El. destruct (lexing_errors items); [|discriminate].
  destruct errs as [|e errs]; [|discriminate]. destruct d' as [|x d']; [discriminate|]. intros [= <-]. split; [reflexivity|].
  apply (loop_reads _ O _ _ _ _ [] eq_refl) in El; auto. apply good_nil.
Qed.

(** ** Tokens and text *)
Section Cut.
  Variables (recover : text -> nat) (other_digit : N -> bool) (parse_f64 : text -> option N).
  (** a text with its tokens and their places *)
  Inductive placed : nat -> list ltok -> text -> Prop :=
  | placed_end pos w : ignored_end w -> placed pos [] w
  | placed_token pos w t l ts s : ignored w -> lexeme parse_f64 t l -> apart (fun _ => false) t l s -> placed (pos + bytes w + bytes l) ts s ->
      placed pos ((t, (pos + bytes w, pos + bytes w + bytes l)) :: ts) (w ++ l ++ s).
  Lemma placed_skip before : forall pos ts s, placed pos (before ++ ts) s -> exists p s', s = p ++ s' /\ placed (pos + bytes p) ts s'.
  Proof.
    induction before as [|t before IH]; intros pos ts s H.
    - exists [], s. split; [reflexivity|]. change (bytes []) with 0. rewrite Nat.add_0_r. exact H.
    - cbn in H. inversion H as [|pos' w t' l ts' s' Hw Hl Ha Hp]; subst. apply IH in Hp. destruct Hp as (p & s'' & -> & Hp).
      exists (w ++ l ++ p), s''. rewrite <- !app_assoc. split; [reflexivity|]. rewrite !bytes_app. replace (pos + (bytes w + (bytes l + bytes p))) with (pos + bytes w + bytes l + bytes p) by lia. exact Hp.
  Qed.
  Lemma last_any {A} (l : list A) a b : l <> [] -> last l a = last l b.
  Proof. induction l as [|x l IH]; [congruence|]. intros _. cbn [last]. destruct l; [reflexivity|]. apply IH. discriminate. Qed.
  Lemma apart_nil digits t l : apart digits t l [].
  Proof. destruct t; cbn; auto. Qed.
  Lemma lexeme_nonempty t l : lexeme parse_f64 t l -> l <> [].
  Proof. intros H ->. destruct (lexeme_head (fun _ => 0) (fun _ => false) parse_f64 _ _ H) as (c & l' & E & _). discriminate E. Qed.
  Lemma placed_cut : forall rest t pos after s, placed pos (t :: rest ++ after) s ->
    exists w l m q, s = w ++ (l ++ m) ++ q /\ ignored w /\ lexeme parse_f64 (fst t) l /\ fst (snd t) = pos + bytes w /\
      snd (snd (last (t :: rest) t)) = pos + bytes w + bytes (l ++ m) /\ source (fun _ => false) parse_f64 (map fst (t :: rest)) (l ++ m).
  Proof.
    induction rest as [|t' rest IH]; intros t pos after s H.
    - cbn [app] in H. inversion H as [|pos' w t0 l ts' s' Hw Hl Ha Hp]; subst. exists w, l, [], s'. rewrite app_nil_r. cbn [fst snd last map].
      split; [reflexivity|]. do 3 (split; [auto|]). split; [reflexivity|]. rewrite <- (app_nil_r l). apply (source_token _ _ [] t0 l []); auto using apart_nil.
      + constructor.
      + constructor. left. constructor.
    - cbn [app] in H. inversion H as [|pos' w t0 l ts' s' Hw Hl Ha Hp]; subst. apply IH in Hp. destruct Hp as (w' & l' & m' & q & -> & Hw' & Hl' & E1 & E2 & Hs).
      exists w, l, (w' ++ l' ++ m'), q. split; [rewrite <- !app_assoc; reflexivity|]. do 3 (split; [auto|]). split.
      + change (last ((t0, (pos + bytes w, pos + bytes w + bytes l)) :: t' :: rest) (t0, (pos + bytes w, pos + bytes w + bytes l))) with (last (t' :: rest) (t0, (pos + bytes w, pos + bytes w + bytes l))).
        replace (last (t' :: rest) (t0, (pos + bytes w, pos + bytes w + bytes l))) with (last (t' :: rest) t').
        * rewrite E2, !bytes_app. lia.
        * apply last_any. discriminate.
      + cbn [map fst]. apply (source_token _ _ [] t0 l); auto using source_gap; [constructor|].
        destruct w' as [|c w']; [|destruct t0; exact Ha]. pose proof (lexeme_nonempty _ _ Hl') as N. destruct l' as [|c l']; [congruence|]. destruct t0; exact Ha.
  Qed.
  Hypothesis f64_ascii : forall l b, parse_f64 l = Some b -> Forall (fun c => c < 128)%N l.
  Lemma lexs_placed : forall n s, length s <= n -> forall pos, lexing_errors (lexs recover other_digit parse_f64 false pos s) = [] ->
    placed pos (items_at (lexs recover other_digit parse_f64 false pos s)) s.
  Proof.
    induction n as [|n IH]; intros s Hn pos; rewrite lexs_eq.
    - destruct s; [|cbn in Hn; lia]. constructor. left. constructor.
    - pose proof (skip_sound (length s) s ltac:(auto)) as Hs. destruct (skip_ignored false s) as [|c s1].
      { constructor. exact Hs. }
      destruct Hs as (w & -> & Hw & _). cbn zeta. rewrite !blen_app.
      replace (pos + (blen w + blen (c :: s1) - blen (c :: s1))) with (pos + blen w) by lia.
      destruct (Lexer.lex_token recover other_digit parse_f64 false (pos + blen w) c s1) as (res & s2) eqn:E.
      pose proof (lex_token_eats _ _ _ _ _ _ _ _ _ E) as ((l & Hl & El) & Hf).
      destruct res as [t|e].
      2: { intros K. exfalso. destruct e; discriminate K. }
      apply lex_token_sound in E; [|exact f64_ascii]. destruct E as (l' & El' & H & Ha).
      assert (l' = l) as ->. { rewrite El in El'. apply app_inv_tail in El'. auto. }
      rewrite El, blen_app. replace (pos + blen w + (blen l + blen s2 - blen s2)) with (pos + blen w + blen l) by lia. rewrite !blen_bytes.
      intros K. cbn [items_at flat_map fst snd app]. apply placed_token; auto. apply IH; auto.
      rewrite app_length, El, app_length in Hn. destruct l; [congruence|]. cbn in Hn. lia.
  Qed.
  Hypothesis bom : other_digit 65279%N = false.
  Lemma lexeme_ascii t l : lexeme parse_f64 t l -> exists c l', l = c :: l' /\ (c < 128)%N.
  Proof.
    assert (K : forall c, digit c \/ c = 45%N \/ name_start c -> (c < 128)%N).
    { intros c H. unfold digit, name_start in H. lia. }
    intros [p|n Hn|n Hn|l' Hl Hf|l' b Hl Hb|body v Hb|body raw Hb].
    - destruct p; cbn; eexists _, _; (split; [reflexivity|]); reflexivity.
    - destruct n as [|c n]; [destruct Hn|]. exists c, n. split; [reflexivity|]. apply K. right. right. apply Hn.
    - eexists _, _. split; [reflexivity|]. reflexivity.
    - destruct (int_literal_head recover other_digit parse_f64 _ Hl) as (c & l'' & -> & Hc). eexists _, _. split; [reflexivity|]. apply K. tauto.
    - destruct (float_literal_head recover other_digit parse_f64 _ Hl) as (c & l'' & -> & Hc). eexists _, _. split; [reflexivity|]. apply K. tauto.
    - eexists _, _. split; [reflexivity|]. reflexivity.
    - eexists _, _. split; [reflexivity|]. reflexivity.
  Qed.
  Lemma source_digits ts s : source (fun _ => false) parse_f64 ts s -> source other_digit parse_f64 ts s.
  Proof.
    induction 1 as [w Hw|w t l ts s Hw Hl Ha H IH]; constructor; auto.
    assert (N : forall c, first_is (fun x => x = c) s -> (128 <= c)%N -> other_digit c = false).
    { intros c Hc Hb. clear IH Ha. destruct H as [w' [Hw'|(w1 & body & Hw1 & Hb' & ->)]|w' t' l' ts' s' Hw' Hl' _ _].
      - destruct w' as [|x w']; [destruct Hc|]. cbn in Hc. subst x. apply ignored_head in Hw'. destruct Hw' as [B| ->]; [|lia]. destruct B; try lia. exact bom.
      - destruct w1 as [|x w1]; cbn in Hc; [lia|]. subst x. apply ignored_head in Hw1. destruct Hw1 as [B| ->]; [|lia]. destruct B; try lia. exact bom.
      - destruct w' as [|x w']; cbn in Hc.
        + destruct (lexeme_ascii _ _ Hl') as (y & l'' & -> & Hy). cbn in Hc. lia.
        + subst x. apply ignored_head in Hw'. destruct Hw' as [B| ->]; [|lia]. destruct B; try lia. exact bom. }
    destruct t; cbn in *; auto; intros K; apply Ha; (destruct s as [|c s]; [exact K|]); cbn in *; destruct K as [K|[K|(K1 & K2)]]; auto; rewrite (N c eq_refl K1) in K2; discriminate.
  Qed.
  Lemma placed_slice ts s n : placed 0 ts s -> well_placed ts n ->
    exists p m q, s = p ++ m ++ q /\ node_span n = (bytes p, bytes (p ++ m)) /\ map fst (lex recover other_digit parse_f64 false m) = map inl (node_tokens n).
  Proof.
    intros P (before & mine & after & -> & E & (first & lst & b & a & E1 & E2 & E3)). apply placed_skip in P. destruct P as (p & s' & -> & P).
    rewrite E1 in P. cbn [app] in P. apply placed_cut in P. destruct P as (w & l & m & q & -> & Hw & Hl & F1 & F2 & Hs). rewrite <- E1 in *. rewrite E in Hs.
    exists (p ++ w), (l ++ m), q. split; [rewrite <- !app_assoc; reflexivity|]. split.
    - rewrite E3. assert (L : last mine first = lst). { rewrite E2. apply last_last. } rewrite L in F2. rewrite F1, F2. f_equal; rewrite !bytes_app; lia.
    - exact (lexs_complete recover other_digit parse_f64 _ _ (source_digits _ _ Hs) 0).
  Qed.
End Cut.
