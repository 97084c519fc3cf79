(** C62: define-record-type. *)
From Coq Require Import ZArith NArith Bool Ascii String List Arith Lia.
From Verif Require Import Base Heap HeapM Records RecordsThm DefRecord.
Import ListNotations.
Local Open Scope list_scope.
Local Open Scope nat_scope.

(** * Specification of the form *)
Definition symbol (o : obj) : Prop := (exists n, o = OSym n) \/ (exists n i, o = OGensym n i).
Fixpoint olist (l : list obj) : obj := match l with [] => ONull | a :: r => OPair a (olist r) end.
Definition name_of (o : obj) (s : list byte) : Prop := o = OSym s \/ exists i, o = OGensym s i.
(** [declares r s f]: in the definition of the type named [r], the specification [s]
    declares the field [f] *)
Inductive declares (r : list byte) : obj -> field -> Prop :=
| DName x n : name_of x n -> declares r x (mkField x (OSym (r ++ s2b "-" ++ n)) None)
| DImm x n : name_of x n -> declares r (olist [sym "immutable"; x]) (mkField x (OSym (r ++ s2b "-" ++ n)) None)
| DMut x n : name_of x n -> declares r (olist [sym "mutable"; x]) (mkField x (OSym (r ++ s2b "-" ++ n)) (Some (OSym (r ++ s2b "-" ++ n ++ s2b "-set!"))))
| DImmFull x a : symbol x -> symbol a -> declares r (olist [sym "immutable"; x; a]) (mkField x a None)
| DMutFull x a m : symbol x -> symbol a -> symbol m -> declares r (olist [sym "mutable"; x; a; m]) (mkField x a (Some m)).
(** what a clause says *)
Inductive said : Type :=
| SParent (e : obj) | SUid (e : obj) | SSealed (b : bool) | SOpaque (b : bool) | SProtocol (e : obj)
| SFields (fs : list field) | SMethods (g : obj) (impls : list obj).
Definition obool (b : bool) : obj := if b then OTrue else OFalse.
Inductive says (r : list byte) : obj -> said -> Prop :=
| YParent e : says r (olist [sym "parent"; e]) (SParent e)
| YUid e : says r (olist [sym "uid"; e]) (SUid e)
| YSealed b : says r (olist [sym "sealed"; obool b]) (SSealed b)
| YOpaque b : says r (olist [sym "opaque"; obool b]) (SOpaque b)
| YProtocol e : says r (olist [sym "protocol"; e]) (SProtocol e)
| YFields ss fs : Forall2 (declares r) ss fs -> says r (olist (sym "fields" :: ss)) (SFields fs)
| YMethods g impls : symbol g -> says r (olist (sym "methods" :: g :: impls)) (SMethods g impls).
(** clauses of the same kind; methods clauses are of the same kind when they are about
    the same interface *)
Inductive tag : Type := TParent | TUid | TSealed | TOpaque | TProtocol | TFields | TMethods (g : obj).
Definition kind (k : said) : tag :=
  match k with
  | SParent _ => TParent | SUid _ => TUid | SSealed _ => TSealed | SOpaque _ => TOpaque | SProtocol _ => TProtocol
  | SFields _ => TFields | SMethods g _ => TMethods g
  end.
Definition methods_of (ks : list said) : list (obj * list obj) :=
  flat_map (fun k => match k with SMethods g i => [(g, i)] | _ => [] end) ks.
(** the definition says what the clauses say *)
Record summary (ks : list said) (st : clauses) : Prop := mkSummary {
  s_parent : forall e, c_parent st = Some e <-> In (SParent e) ks;
  s_uid : forall e, c_uid st = Some e <-> In (SUid e) ks;
  s_sealed : forall e, c_sealed st = Some e <-> exists b, e = obool b /\ In (SSealed b) ks;
  s_opaque : forall e, c_opaque st = Some e <-> exists b, e = obool b /\ In (SOpaque b) ks;
  s_protocol : forall e, c_protocol st = Some e <-> In (SProtocol e) ks;
  s_fields : forall fs, c_fields st = Some fs <-> In (SFields fs) ks;
  s_methods : c_methods st = methods_of ks }.

(** * Lemmas about the form *)
Lemma symbolp_spec o : symbolp o = true <-> symbol o.
Proof.
  unfold symbol. destruct o; simpl; split; intros H; try discriminate; eauto; destruct H as [[x H]|[x [y H]]]; discriminate.
Qed.
Lemma is_kw_spec kw o : is_kw kw o = true <-> o = sym kw.
Proof. unfold is_kw, sym. destruct o; split; intros H; try discriminate; [apply bytes_eqb_spec in H; congruence|injection H as ->; apply bytes_eqb_spec; auto]. Qed.
Lemma is_kw_sym a b : is_kw a (sym b) = bytes_eqb (s2b b) (s2b a).
Proof. reflexivity. Qed.
Lemma same_sym_spec a b : symbol a -> (same_sym a b = true <-> a = b).
Proof.
  intros [[n ->]|[n [i ->]]]; destruct b; simpl; split; intros H; try discriminate.
  - apply bytes_eqb_spec in H. congruence.
  - injection H as <-. apply bytes_eqb_spec. auto.
  - apply andb_true_iff in H as [H1 H2]. apply bytes_eqb_spec in H1. apply N.eqb_eq in H2. congruence.
  - injection H as <- <-. rewrite N.eqb_refl, andb_true_r. apply bytes_eqb_spec. auto.
Qed.
Lemma to_list_spec o xs : to_list o = Some xs <-> o = olist xs.
Proof.
  revert xs. induction o; intros xs; simpl; try (split; [discriminate|destruct xs; discriminate]).
  - split; [intros H; injection H as <-; auto|destruct xs; [auto|discriminate]].
  - destruct (to_list o2) as [m|]; simpl.
    + split; [intros H; injection H as <-; simpl; f_equal; apply IHo2; auto|]. destruct xs as [|x xs]; [discriminate|]. simpl. intros H. injection H as <- H.
      apply IHo2 in H. congruence.
    + split; [discriminate|]. destruct xs as [|x xs]; [discriminate|]. simpl. intros H. injection H as <- H. apply IHo2 in H. discriminate.
Qed.
Lemma to_olist l : to_list (olist l) = Some l. Proof. apply to_list_spec. auto. Qed.
Lemma name_symbol x n : name_of x n -> symbol x /\ text x = n.
Proof. intros [->|[i ->]]; split; auto; [left|right]; eauto. Qed.
Lemma symbol_name x : symbol x -> name_of x (text x).
Proof. intros [[n ->]|[n [i ->]]]; [left|right]; simpl; eauto. Qed.
Lemma plain_spec r s f : plain_field r s = Some f <-> symbol s /\ f = mkField s (acc_name r s) None.
Proof.
  unfold plain_field. destruct (symbolp s) eqn:E.
  - apply symbolp_spec in E. split; [intros H; injection H as <-; auto|intros [_ ->]; auto].
  - split; [discriminate|]. intros [H _]. apply symbolp_spec in H. congruence.
Qed.
Lemma olist_symbol l : ~ symbol (olist l). Proof. destruct l; intros [[? H]|[? [? H]]]; discriminate. Qed.
Lemma field_of_spec r s f : symbol r -> (field_of r s = Some f <-> declares (text r) s f).
Proof.
  intros SR. split.
  - unfold field_of. intros H.
    assert (PL : plain_field r s = Some f -> declares (text r) s f).
    { intros P. apply plain_spec in P as [SY ->]. unfold acc_name. apply DName. apply symbol_name; auto. }
    destruct (to_list s) as [[|k [|a [|b [|c [|? ?]]]]]|] eqn:E; auto; apply to_list_spec in E; subst s.
    + destruct (is_kw "immutable" k) eqn:K1.
      * apply is_kw_spec in K1 as ->. destruct (symbolp a) eqn:SA; [|discriminate]. injection H as <-. apply symbolp_spec in SA. apply DImm, symbol_name; auto.
      * destruct (is_kw "mutable" k) eqn:K2; auto. apply is_kw_spec in K2 as ->. destruct (symbolp a) eqn:SA; [|discriminate]. injection H as <-.
        apply symbolp_spec in SA. apply DMut, symbol_name; auto.
    + destruct (is_kw "immutable" k) eqn:K1; auto. apply is_kw_spec in K1 as ->. destruct (symbolp a && symbolp b) eqn:SA; [|discriminate].
      injection H as <-. apply andb_true_iff in SA as [S1 S2]. apply symbolp_spec in S1, S2. constructor; auto.
    + destruct (is_kw "mutable" k) eqn:K1; auto. apply is_kw_spec in K1 as ->. destruct (symbolp a && symbolp b && symbolp c) eqn:SA; [|discriminate].
      injection H as <-. apply andb_true_iff in SA as [SA S3]. apply andb_true_iff in SA as [S1 S2]. apply symbolp_spec in S1, S2, S3. constructor; auto.
  - intros D. unfold field_of. inversion D as [x n NX E1 E2|x n NX E1 E2|x n NX E1 E2|x a SX SA E1 E2|x a m SX SA SM E1 E2]; subst s f.
    + assert (X := NX). apply name_symbol in X as [SX <-]. assert (P : plain_field r x = Some (mkField x (acc_name r x) None)) by (apply plain_spec; auto).
      destruct (to_list x) as [l|] eqn:E; [apply to_list_spec in E; subst x; edestruct olist_symbol; eauto|]. exact P.
    + apply name_symbol in NX as [SX <-]. rewrite to_olist. apply symbolp_spec in SX. change (is_kw "immutable" (sym "immutable")) with true. rewrite SX. auto.
    + apply name_symbol in NX as [SX <-]. rewrite to_olist. apply symbolp_spec in SX. change (is_kw "immutable" (sym "mutable")) with false.
      change (is_kw "mutable" (sym "mutable")) with true. rewrite SX. auto.
    + rewrite to_olist. apply symbolp_spec in SX, SA. change (is_kw "immutable" (sym "immutable")) with true. rewrite SX, SA. auto.
    + rewrite to_olist. apply symbolp_spec in SX, SA, SM. change (is_kw "mutable" (sym "mutable")) with true. rewrite SX, SA, SM. auto.
Qed.
Lemma fields_of_spec r ss fs : symbol r -> (fields_of r ss = Some fs <-> Forall2 (declares (text r)) ss fs).
Proof.
  intros SR. revert fs. induction ss as [|s ss IH]; intros fs; simpl.
  - split; [intros H; injection H as <-; auto|intros H; inversion H; auto].
  - split.
    + destruct (field_of r s) as [f|] eqn:E; [|discriminate]. destruct (fields_of r ss) as [q|]; [|discriminate]. intros H. injection H as <-.
      constructor; [apply field_of_spec; auto|apply IH; auto].
    + intros H. inversion H as [|a b ss' fs' D F]; subst. apply field_of_spec in D; auto. apply IH in F. rewrite D, F. auto.
Qed.
Lemma methods_app a b : methods_of (a ++ b) = methods_of a ++ methods_of b.
Proof. unfold methods_of. apply flat_map_app. Qed.
Lemma methods_tags ks g : In (TMethods g) (map kind ks) <-> In g (map fst (methods_of ks)).
Proof.
  induction ks as [|k ks IH]; simpl; [tauto|]. rewrite map_app, in_app_iff, IH. destruct k; simpl; split; intros [H|H]; auto; try discriminate; try tauto.
  - injection H as ->. auto.
  - destruct H as [->|[]]. auto.
Qed.
Lemma booleanp_spec o : booleanp o = true <-> exists b, o = obool b.
Proof.
  split; [destruct o; try discriminate; [exists true|exists false]; auto|intros [[] ->]; auto].
Qed.
Lemma obool_inj a b : obool a = obool b -> a = b. Proof. destruct a, b; auto; discriminate. Qed.
Lemma opt_eq {A} (x y : option A) (P : A -> Prop) : (forall e, x = Some e <-> P e) -> (forall e, y = Some e <-> P e) -> x = y.
Proof.
  intros H K. destruct x as [a|].
  - symmetry. apply K, H. auto.
  - destruct y as [b|]; auto. assert (X := proj2 (H b) (proj1 (K b) eq_refl)). discriminate.
Qed.
Lemma summary_unique ks a b : summary ks a -> summary ks b -> a = b.
Proof.
  intros [A1 A2 A3 A4 A5 A6 A7] [B1 B2 B3 B4 B5 B6 B7].
  assert (E1 := opt_eq _ _ _ A1 B1). assert (E2 := opt_eq _ _ _ A2 B2). assert (E3 := opt_eq _ _ _ A3 B3). assert (E4 := opt_eq _ _ _ A4 B4).
  assert (E5 := opt_eq _ _ _ A5 B5). assert (E6 := opt_eq _ _ _ A6 B6). destruct a, b. cbn in *. congruence.
Qed.
Lemma in_snoc_other (k x : said) ks : x <> k -> (In x ks <-> In x (ks ++ [k])).
Proof. intros N. rewrite in_app_iff. simpl. split; [auto|intros [H|[H|[]]]; [auto|congruence]]. Qed.
Ltac keep :=
  first [ apply in_snoc_other; discriminate
        | split; intros [b1 [E1 I1]]; exists b1; (split; [exact E1|]); (apply in_snoc_other; [discriminate|exact I1])
        | split; intros [b1 [E1 I1]]; exists b1; (split; [exact E1|]); (apply in_snoc_other in I1; [exact I1|discriminate]) 
        | split; intros [b1 [E1 I1]]; exists b1; (split; [exact E1|]); [apply in_snoc_other; [discriminate|exact I1]|apply in_snoc_other in I1; [exact I1|discriminate]] ].
Lemma snoc_parent ks st x : summary ks st -> c_parent st = None ->
  ~ In TParent (map kind ks) /\ summary (ks ++ [SParent x]) (mkClauses (Some x) (c_uid st) (c_sealed st) (c_opaque st) (c_protocol st) (c_fields st) (c_methods st)).
Proof.
  intros [S1 S2 S3 S4 S5 S6 S7] N. split.
  - intros I. apply in_map_iff in I as [[] [E I]]; try discriminate. apply S1 in I. congruence.
  - constructor; cbn [c_parent c_uid c_sealed c_opaque c_protocol c_fields c_methods]; intros; try rewrite methods_app, app_nil_r; auto;
      try (rewrite ?S2, ?S3, ?S4, ?S5, ?S6; keep).
    rewrite in_app_iff. split.
    + intros H. injection H as <-. right; left; auto.
    + intros [H|[H|[]]]; [apply S1 in H; congruence|congruence].
Qed.
Lemma snoc_uid ks st x : summary ks st -> c_uid st = None ->
  ~ In TUid (map kind ks) /\ summary (ks ++ [SUid x]) (mkClauses (c_parent st) (Some x) (c_sealed st) (c_opaque st) (c_protocol st) (c_fields st) (c_methods st)).
Proof.
  intros [S1 S2 S3 S4 S5 S6 S7] N. split.
  - intros I. apply in_map_iff in I as [[] [E I]]; try discriminate. apply S2 in I. congruence.
  - constructor; cbn [c_parent c_uid c_sealed c_opaque c_protocol c_fields c_methods]; intros; try rewrite methods_app, app_nil_r; auto;
      try (rewrite ?S1, ?S3, ?S4, ?S5, ?S6; keep).
    rewrite in_app_iff. split.
    + intros H. injection H as <-. right; left; auto.
    + intros [H|[H|[]]]; [apply S2 in H; congruence|congruence].
Qed.
Lemma snoc_protocol ks st x : summary ks st -> c_protocol st = None ->
  ~ In TProtocol (map kind ks) /\ summary (ks ++ [SProtocol x]) (mkClauses (c_parent st) (c_uid st) (c_sealed st) (c_opaque st) (Some x) (c_fields st) (c_methods st)).
Proof.
  intros [S1 S2 S3 S4 S5 S6 S7] N. split.
  - intros I. apply in_map_iff in I as [[] [E I]]; try discriminate. apply S5 in I. congruence.
  - constructor; cbn [c_parent c_uid c_sealed c_opaque c_protocol c_fields c_methods]; intros; try rewrite methods_app, app_nil_r; auto;
      try (rewrite ?S1, ?S2, ?S3, ?S4, ?S6; keep).
    rewrite in_app_iff. split.
    + intros H. injection H as <-. right; left; auto.
    + intros [H|[H|[]]]; [apply S5 in H; congruence|congruence].
Qed.
Lemma snoc_fields ks st fs : summary ks st -> c_fields st = None ->
  ~ In TFields (map kind ks) /\ summary (ks ++ [SFields fs]) (mkClauses (c_parent st) (c_uid st) (c_sealed st) (c_opaque st) (c_protocol st) (Some fs) (c_methods st)).
Proof.
  intros [S1 S2 S3 S4 S5 S6 S7] N. split.
  - intros I. apply in_map_iff in I as [[] [E I]]; try discriminate. apply S6 in I. congruence.
  - constructor; cbn [c_parent c_uid c_sealed c_opaque c_protocol c_fields c_methods]; intros; try rewrite methods_app, app_nil_r; auto;
      try (rewrite ?S1, ?S2, ?S3, ?S4, ?S5; keep).
    rewrite in_app_iff. split.
    + intros H. injection H as <-. right; left; auto.
    + intros [H|[H|[]]]; [apply S6 in H; congruence|congruence].
Qed.
Lemma snoc_sealed ks st b : summary ks st -> c_sealed st = None ->
  ~ In TSealed (map kind ks) /\ summary (ks ++ [SSealed b]) (mkClauses (c_parent st) (c_uid st) (Some (obool b)) (c_opaque st) (c_protocol st) (c_fields st) (c_methods st)).
Proof.
  intros [S1 S2 S3 S4 S5 S6 S7] N. split.
  - intros I. apply in_map_iff in I as [[] [E I]]; try discriminate. assert (X := proj2 (S3 (obool b0)) (ex_intro _ b0 (conj eq_refl I))). congruence.
  - constructor; cbn [c_parent c_uid c_sealed c_opaque c_protocol c_fields c_methods]; intros; try rewrite methods_app, app_nil_r; auto;
      try (rewrite ?S1, ?S2, ?S4, ?S5, ?S6; keep).
    split.
    + intros H. injection H as <-. exists b. split; auto. apply in_app_iff. right; left; auto.
    + intros [b0 [-> I]]. apply in_app_iff in I as [I|[I|[]]]; [assert (X := proj2 (S3 (obool b0)) (ex_intro _ b0 (conj eq_refl I))); congruence|congruence].
Qed.
Lemma snoc_opaque ks st b : summary ks st -> c_opaque st = None ->
  ~ In TOpaque (map kind ks) /\ summary (ks ++ [SOpaque b]) (mkClauses (c_parent st) (c_uid st) (c_sealed st) (Some (obool b)) (c_protocol st) (c_fields st) (c_methods st)).
Proof.
  intros [S1 S2 S3 S4 S5 S6 S7] N. split.
  - intros I. apply in_map_iff in I as [[] [E I]]; try discriminate. assert (X := proj2 (S4 (obool b0)) (ex_intro _ b0 (conj eq_refl I))). congruence.
  - constructor; cbn [c_parent c_uid c_sealed c_opaque c_protocol c_fields c_methods]; intros; try rewrite methods_app, app_nil_r; auto;
      try (rewrite ?S1, ?S2, ?S3, ?S5, ?S6; keep).
    split.
    + intros H. injection H as <-. exists b. split; auto. apply in_app_iff. right; left; auto.
    + intros [b0 [-> I]]. apply in_app_iff in I as [I|[I|[]]]; [assert (X := proj2 (S4 (obool b0)) (ex_intro _ b0 (conj eq_refl I))); congruence|congruence].
Qed.
Lemma snoc_methods ks st g impls : summary ks st ->
  summary (ks ++ [SMethods g impls]) (mkClauses (c_parent st) (c_uid st) (c_sealed st) (c_opaque st) (c_protocol st) (c_fields st) (c_methods st ++ [(g, impls)])).
Proof.
  intros [S1 S2 S3 S4 S5 S6 S7].
  constructor; cbn [c_parent c_uid c_sealed c_opaque c_protocol c_fields c_methods]; intros;
    try (rewrite ?S1, ?S2, ?S3, ?S4, ?S5, ?S6; keep).
  rewrite methods_app, S7. auto.
Qed.
Lemma existsb_methods ks st g : summary ks st -> symbol g ->
  (existsb (fun m => same_sym g (fst m)) (c_methods st) = false <-> ~ In (TMethods g) (map kind ks)).
Proof.
  intros [S1 S2 S3 S4 S5 S6 S7] SG. rewrite S7, methods_tags. split.
  - intros E I. apply in_map_iff in I as [m [<- I]]. assert (X : existsb (fun m0 => same_sym (fst m) (fst m0)) (methods_of ks) = true).
    { apply existsb_exists. exists m. split; auto. apply same_sym_spec; auto. } congruence.
  - intros N. destruct (existsb _ _) eqn:E; auto. exfalso. apply existsb_exists in E as [m [I E]]. apply same_sym_spec in E; auto. subst g. apply N, in_map; auto.
Qed.
Lemma none_spec {A} (x : option A) : (forall a, x <> Some a) -> x = None. Proof. destruct x; auto. intros H. exfalso. apply (H a). auto. Qed.
Lemma clause1_spec r ks st c st1 : symbol r -> summary ks st ->
  (clause1 r st c = Some st1 <-> exists k, says (text r) c k /\ ~ In (kind k) (map kind ks) /\ summary (ks ++ [k]) st1).
Proof.
  intros SR SM. split.
  - unfold clause1. destruct (to_list c) as [[|k args]|] eqn:E; try discriminate. apply to_list_spec in E as ->.
    destruct (is_kw "methods" k) eqn:K1.
    { apply is_kw_spec in K1 as ->. destruct args as [|g impls]; [discriminate|]. destruct (symbolp g) eqn:SG; [|discriminate]. apply symbolp_spec in SG.
      destruct (existsb _ _) eqn:X; [discriminate|]. intros H. injection H as <-. exists (SMethods g impls). split; [constructor; auto|].
      split; [eapply existsb_methods; eauto|apply snoc_methods; auto]. }
    destruct (is_kw "fields" k) eqn:K2.
    { apply is_kw_spec in K2 as ->. destruct (c_fields st) eqn:F; [discriminate|]. destruct (fields_of r args) as [fs|] eqn:FO; [|discriminate]. intros H. injection H as <-.
      apply fields_of_spec in FO; auto. destruct (snoc_fields ks st fs SM F) as [A B]. exists (SFields fs). split; [constructor; auto|]. split; auto. }
    destruct args as [|x [|? ?]]; try discriminate.
    destruct (is_kw "parent" k) eqn:K3.
    { apply is_kw_spec in K3 as ->. destruct (c_parent st) eqn:F; [discriminate|]. intros H. injection H as <-. destruct (snoc_parent ks st x SM F) as [A B].
      exists (SParent x). split; [constructor|]. split; auto. }
    destruct (is_kw "uid" k) eqn:K4.
    { apply is_kw_spec in K4 as ->. destruct (c_uid st) eqn:F; [discriminate|]. intros H. injection H as <-. destruct (snoc_uid ks st x SM F) as [A B].
      exists (SUid x). split; [constructor|]. split; auto. }
    destruct (is_kw "opaque" k) eqn:K5.
    { apply is_kw_spec in K5 as ->. destruct (c_opaque st) eqn:F; [discriminate|]. destruct (booleanp x) eqn:BX; [|discriminate]. apply booleanp_spec in BX as [b ->].
      intros H. injection H as <-. destruct (snoc_opaque ks st b SM F) as [A B]. exists (SOpaque b). split; [constructor|]. split; auto. }
    destruct (is_kw "sealed" k) eqn:K6.
    { apply is_kw_spec in K6 as ->. destruct (c_sealed st) eqn:F; [discriminate|]. destruct (booleanp x) eqn:BX; [|discriminate]. apply booleanp_spec in BX as [b ->].
      intros H. injection H as <-. destruct (snoc_sealed ks st b SM F) as [A B]. exists (SSealed b). split; [constructor|]. split; auto. }
    destruct (is_kw "protocol" k) eqn:K7; [|discriminate].
    apply is_kw_spec in K7 as ->. destruct (c_protocol st) eqn:F; [discriminate|]. intros H. injection H as <-. destruct (snoc_protocol ks st x SM F) as [A B].
    exists (SProtocol x). split; [constructor|]. split; auto.
  - intros [k [SY [NI SM1]]].
    assert (G : exists st2, clause1 r st c = Some st2 /\ summary (ks ++ [k]) st2).
    { unfold clause1. inversion SY as [e E1 E2|e E1 E2|b E1 E2|b E1 E2|e E1 E2|ss fs F E1 E2|g impls SG E1 E2]; subst c k; rewrite to_olist; cbn [kind] in NI;
        rewrite !is_kw_sym; cbn [bytes_eqb s2b list_ascii_of_string Ascii.eqb Bool.eqb andb].
      - assert (N : c_parent st = None). { apply none_spec. intros a X. apply (s_parent _ _ SM) in X. apply NI. apply in_map_iff. exists (SParent a). auto. }
        rewrite N. eexists. split; [reflexivity|]. apply snoc_parent; auto.
      - assert (N : c_uid st = None). { apply none_spec. intros a X. apply (s_uid _ _ SM) in X. apply NI. apply in_map_iff. exists (SUid a). auto. }
        rewrite N. eexists. split; [reflexivity|]. apply snoc_uid; auto.
      - assert (N : c_sealed st = None). { apply none_spec. intros a X. apply (s_sealed _ _ SM) in X as [b' [_ X]]. apply NI. apply in_map_iff. exists (SSealed b'). auto. }
        rewrite N. replace (booleanp (obool b)) with true by (destruct b; auto). eexists. split; [reflexivity|]. apply snoc_sealed; auto.
      - assert (N : c_opaque st = None). { apply none_spec. intros a X. apply (s_opaque _ _ SM) in X as [b' [_ X]]. apply NI. apply in_map_iff. exists (SOpaque b'). auto. }
        rewrite N. replace (booleanp (obool b)) with true by (destruct b; auto). eexists. split; [reflexivity|]. apply snoc_opaque; auto.
      - assert (N : c_protocol st = None). { apply none_spec. intros a X. apply (s_protocol _ _ SM) in X. apply NI. apply in_map_iff. exists (SProtocol a). auto. }
        rewrite N. eexists. split; [reflexivity|]. apply snoc_protocol; auto.
      - assert (N : c_fields st = None). { apply none_spec. intros a X. apply (s_fields _ _ SM) in X. apply NI. apply in_map_iff. exists (SFields a). auto. }
        rewrite N. apply fields_of_spec in F; auto. rewrite F. eexists. split; [reflexivity|]. apply snoc_fields; auto.
      - assert (X := SG). apply symbolp_spec in X. rewrite X. apply (existsb_methods ks st g SM SG) in NI. rewrite NI. eexists. split; [reflexivity|]. apply snoc_methods; auto. }
    destruct G as [st2 [E SM2]]. rewrite E. f_equal. eapply summary_unique; eauto.
Qed.
Lemma NoDup_prefix {A} (a b : list A) : NoDup (a ++ b) -> NoDup a.
Proof.
  induction a as [|x a IH]; intros H; [constructor|]. inversion H as [|? ? N R]; subst. constructor; auto. intros I. apply N, in_or_app; auto.
Qed.
Lemma clause_loop_spec r cls : symbol r -> forall ks st st1, summary ks st -> NoDup (map kind ks) ->
  (clause_loop r cls st = Some st1 <-> exists ks', Forall2 (says (text r)) cls ks' /\ NoDup (map kind (ks ++ ks')) /\ summary (ks ++ ks') st1).
Proof.
  intros SR. induction cls as [|c cls IH]; intros ks st st1 SM ND; cbn [clause_loop].
  - split.
    + intros H. injection H as <-. exists []. rewrite app_nil_r. auto.
    + intros [ks' [F [_ S1]]]. inversion F; subst. rewrite app_nil_r in S1. f_equal. eapply summary_unique; eauto.
  - split.
    + destruct (clause1 r st c) as [st'|] eqn:E; [|discriminate]. apply (clause1_spec r ks st c st' SR SM) in E as [k [SY [NI SM1]]]. intros H.
      assert (ND1 : NoDup (map kind (ks ++ [k]))).
      { rewrite map_app. apply NoDup_rev in ND. apply NoDup_rev in ND. simpl. apply (NoDup_Add (a := kind k) (l := map kind ks)).
        - replace (map kind ks) with (map kind ks ++ []) at 1 by apply app_nil_r. apply Add_app.
        - split; auto. rewrite rev_involutive in ND. auto. }
      apply (IH _ _ _ SM1 ND1) in H as [ks' [F [N1 S1]]]. exists (k :: ks'). split; [constructor; auto|]. rewrite <- app_assoc in N1, S1. auto.
    + intros [ks' [F [N1 S1]]]. inversion F as [|c0 k cls0 ks'' SY F1]; subst.
      assert (NI : ~ In (kind k) (map kind ks)).
      { rewrite map_app in N1. simpl in N1. apply NoDup_remove_2 in N1. intros I. apply N1. apply in_or_app. auto. }
      assert (X : exists st', summary (ks ++ [k]) st').
      { inversion SY as [e E1 E2|e E1 E2|b E1 E2|b E1 E2|e E1 E2|ss fs F0 E1 E2|g impls SG E1 E2]; subst k; cbn [kind] in NI.
        - eexists. refine (proj2 (snoc_parent ks st e SM _)). apply none_spec. intros a X. apply (s_parent _ _ SM) in X. apply NI. apply in_map_iff. exists (SParent a). auto.
        - eexists. refine (proj2 (snoc_uid ks st e SM _)). apply none_spec. intros a X. apply (s_uid _ _ SM) in X. apply NI. apply in_map_iff. exists (SUid a). auto.
        - eexists. refine (proj2 (snoc_sealed ks st b SM _)). apply none_spec. intros a X. apply (s_sealed _ _ SM) in X as [b' [_ X]]. apply NI. apply in_map_iff. exists (SSealed b'). auto.
        - eexists. refine (proj2 (snoc_opaque ks st b SM _)). apply none_spec. intros a X. apply (s_opaque _ _ SM) in X as [b' [_ X]]. apply NI. apply in_map_iff. exists (SOpaque b'). auto.
        - eexists. refine (proj2 (snoc_protocol ks st e SM _)). apply none_spec. intros a X. apply (s_protocol _ _ SM) in X. apply NI. apply in_map_iff. exists (SProtocol a). auto.
        - eexists. refine (proj2 (snoc_fields ks st fs SM _)). apply none_spec. intros a X. apply (s_fields _ _ SM) in X. apply NI. apply in_map_iff. exists (SFields a). auto.
        - eexists. exact (snoc_methods ks st g impls SM). }
      destruct X as [st' SM1]. assert (E : clause1 r st c = Some st') by (apply (clause1_spec r ks st c st' SR SM); exists k; auto). rewrite E.
      apply (IH (ks ++ [k])); auto.
      * replace (ks ++ k :: ks'') with ((ks ++ [k]) ++ ks'') in N1 by (rewrite <- app_assoc; auto). rewrite map_app in N1. apply NoDup_prefix in N1. auto.
      * exists ks''. rewrite <- app_assoc. simpl. auto.
Qed.
Lemma summary_nil : summary [] no_clauses.
Proof. constructor; cbn; intros; try reflexivity; split; try discriminate; try tauto; intros [b [_ []]]. Qed.

(** * Specification of programs

    [started procs s]: the world [s] after a program that uses records through
    define-record-type. *)
Section Programs.
Variable procs : val -> bool.
(** a definition comes with one descriptor for each of its fields *)
Definition well_formed (c : cmd) : Prop := match c with DDef d _ _ _ descr => List.length descr = List.length (d_fields d) | _ => True end.
Definition started (s : dworld) : Prop := exists cs, Forall well_formed cs /\ s = drun procs dworld0 cs.
Definition heap_of (s : dworld) : heap := rw_heap (dw s).
(** [r] is a type that the definition [d] made *)
Definition defined (s : dworld) (r : val) (d : rdef) : Prop := lookup_type (known s) r = Some d.
(** no name is defined twice: modules refuse that (C55) *)
Definition distinct (d : rdef) : Prop := NoDup (map fst (defines d)) /\ Forall symbol (map fst (defines d)).
Definition call (s : dworld) (r : val) (x : obj) (args : list val) : rres val := fst (dstep procs s (DCall r x args)).
Definition after (s : dworld) (r : val) (x : obj) (args : list val) : dworld := snd (dstep procs s (DCall r x args)).

(** ** The invariant *)
Record dinv (s : dworld) : Prop := mkDinv {
  v_reach : reachable procs (dw s);
  v_types : forall r d, defined s r d -> exists l name p uid prot fields, r = VPtr l /\
     nth_error (heap_of s) l = Some (CRec VBaseRtd (name :: p :: uid :: bool_val (d_sealed d) :: bool_val (d_opaque d) :: prot :: fields)) /\
     List.length fields = List.length (d_fields d) /\
     (p = VFalse \/ exists d', defined s p d' /\ d_sealed d' = false);
  v_all : forall l fs, nth_error (heap_of s) l = Some (CRec VBaseRtd fs) -> exists d, defined s (VPtr l) d;
  v_tabs : forall x, tab_equal (rw_tabs (dw s)) x = None /\ tab_hash (rw_tabs (dw s)) x = None /\ tab_writer (rw_tabs (dw s)) x = None }.
Lemma reach_step w o : reachable procs w -> reachable procs (snd (rstep procs w o)).
Proof.
  intros [ops ->]. exists (ops ++ [o]). revert o. generalize rworld0. induction ops as [|o' ops IH]; intros w o.
  - simpl. destruct (rstep procs w o). auto.
  - rewrite <- app_comm_cons, !rrun_cons. apply IH.
Qed.
(** An operation that makes no type and sets no table keeps the types and the tables. *)
Definition plain_op (o : rop) : Prop := match o with RType _ _ _ _ _ _ | RTab _ _ _ => False | _ => True end.
Lemma plain_keeps w o : good (rw_heap w) -> plain_op o ->
  (forall l fs, nth_error (rw_heap (snd (rstep procs w o))) l = Some (CRec VBaseRtd fs) <-> nth_error (rw_heap w) l = Some (CRec VBaseRtd fs)) /\
  rw_tabs (snd (rstep procs w o)) = rw_tabs w.
Proof.
  intros G P. assert (K := proj2 (step_kept procs w o G)).
  assert (FW : forall l fs, nth_error (rw_heap w) l = Some (CRec VBaseRtd fs) -> nth_error (rw_heap (snd (rstep procs w o))) l = Some (CRec VBaseRtd fs)).
  { intros l fs N. destruct (K _ _ _ N) as [fs' [N' [_ E]]]. rewrite E in N'; auto. }
  assert (APP : forall c l fs, (forall fs, c <> CRec VBaseRtd fs) -> nth_error (rw_heap w ++ [c]) l = Some (CRec VBaseRtd fs) -> nth_error (rw_heap w) l = Some (CRec VBaseRtd fs)).
  { intros c l fs NC N. destruct (Nat.lt_ge_cases l (List.length (rw_heap w))); [rewrite nth_error_app1 in N; auto|]. rewrite nth_error_app2 in N by auto.
    destruct (l - List.length (rw_heap w)) as [|q]; [injection N as N; edestruct NC; eauto|]. destruct q; discriminate. }
  destruct o as [n p u s q fs|r args|r i v|r i v x|r v|k r p|c]; try contradiction; cbn [plain_op] in P; unfold rstep in *.
  - split.
    + intros l fs. split; [|apply FW]. destruct (record_construct (fuel_of (rw_heap w)) (rw_heap w) r args) as [[v h']| | |] eqn:E; cbn [snd rw_heap] in *; auto.
      unfold record_construct in E. destruct (rtdp (rw_heap w) r) eqn:R; [|discriminate].
      destruct (record_size (fuel_of (rw_heap w)) (rw_heap w) r 0); try discriminate. cbn [rbind] in E. destruct (Nat.eqb _ _); [|discriminate]. injection E as <- <-.
      apply APP. intros fs0 X. injection X as -> _. unfold rtdp in R. discriminate.
    + destruct (record_construct _ _ r args) as [[v h']| | |]; auto.
  - cbn [snd]. split; [tauto|auto].
  - split.
    + intros l fs. split; [|apply FW]. destruct (record_put (fuel_of (rw_heap w)) (rw_heap w) r i v x) as [h'| | |] eqn:E; cbn [snd rw_heap] in *; auto.
      destruct (put_spec _ _ _ _ _ _ _ E) as [j [l0 [rt [f0 [J [PP [-> [N [LJ ->]]]]]]]]]. assert (NB := put_nonbase _ _ _ _ _ _ _ PP eq_refl N).
      destruct (Nat.eq_dec l0 l) as [->|NE]; [|rewrite upd_cell_ne by auto; auto]. rewrite upd_at' by (apply nth_error_Some; congruence). intros X. injection X as -> _. contradiction.
    + destruct (record_put _ _ r i v x); auto.
  - cbn [snd]. split; [tauto|auto].
  - destruct (is_record c) eqn:C; cbn [snd rw_heap rw_tabs] in *; [split; [tauto|auto]|]. split; auto. intros l fs. split; [|apply FW]. apply APP. intros fs0 ->. discriminate.
Qed.
Lemma plain_inv s o : dinv s -> plain_op o -> dinv (DW (snd (rstep procs (dw s) o)) (known s)).
Proof.
  intros [R T A TB] P. assert (G := reachable_good _ _ R). destruct (plain_keeps (dw s) o G P) as [K KT]. constructor.
  - apply reach_step; auto.
  - intros r d D. destruct (T r d D) as [l [name [p [uid [prot [fields [-> [N [L Q]]]]]]]]]. exists l, name, p, uid, prot, fields. split; auto. split; [apply K; auto|]. auto.
  - intros l fs N. apply (A l fs). apply K. auto.
  - intros x. cbn [dw]. rewrite KT. auto.
Qed.
Lemma call_plain r k args o : call_op r k args = Some o -> plain_op o.
Proof. destruct k; cbn; destruct args as [|a [|b [|c q]]]; try discriminate; intros H; injection H as <-; exact Logic.I. Qed.
Lemma def_ok s d name p uid descr : dinv s -> List.length descr = List.length (d_fields d) ->
  (p = VFalse \/ exists d', defined s p d' /\ d_sealed d' = false) ->
  exists r s', dstep procs s (DDef d name p uid descr) = (ROk r, s') /\ known s' = (r, d) :: known s /\ r = VPtr (List.length (heap_of s)) /\
    heap_of s' = heap_of s ++ [CRec VBaseRtd (name :: p :: uid :: bool_val (d_sealed d) :: bool_val (d_opaque d) :: VFalse :: descr)] /\ rw_tabs (dw s') = rw_tabs (dw s).
Proof.
  intros [R T A TB] L P. unfold dstep, make_type. destruct P as [->|[d' [D' SD]]].
  - cbn [truthy]. unfold rstep, make_rtd. cbn [truthy]. eexists _, _. split; [reflexivity|]. split; [reflexivity|]. split; [reflexivity|]. cbn. destruct (rw_tabs (dw s)); reflexivity || (split; reflexivity).
  - destruct (T _ _ D') as [l [n' [p' [u' [pr' [f' [-> [N [L' _]]]]]]]]]. cbn [truthy].
    assert (RT : rtdp (rw_heap (dw s)) (VPtr l) = true) by (apply rtdp_spec; eauto). rewrite RT.
    unfold rtd_sealed, rec_ref, rec_at. unfold heap_of in N. rewrite N. cbn [nth_error]. rewrite SD. cbn [bool_val truthy]. unfold rstep, make_rtd. cbn [truthy].
    unfold tab_ref. rewrite RT. destruct (TB (VPtr l)) as [-> [-> ->]]. cbn [rbind]. eexists _, _. split; [reflexivity|]. split; [reflexivity|]. split; [reflexivity|]. cbn. destruct (rw_tabs (dw s)); reflexivity || (split; reflexivity).
Qed.
Lemma def_bad s d name p uid descr : dinv s -> ~ (p = VFalse \/ exists d', defined s p d' /\ d_sealed d' = false) ->
  exists e, dstep procs s (DDef d name p uid descr) = (RErr e, s).
Proof.
  intros [R T A TB] P. unfold dstep, make_type. assert (TP : truthy p = true) by (apply truthy_spec; intros ->; apply P; auto). rewrite TP.
  destruct (rtdp (rw_heap (dw s)) p) eqn:RT; [|eexists; destruct s; reflexivity]. apply rtdp_spec in RT as [l [fs [-> N]]].
  destruct (A l fs N) as [d' D']. destruct (T _ _ D') as [l' [n' [p' [u' [pr' [f' [E [N' [L' _]]]]]]]]]. injection E as <-.
  unfold rtd_sealed, rec_ref, rec_at. unfold heap_of in N'. rewrite N'. cbn [nth_error].
  destruct (d_sealed d') eqn:SD; [cbn [bool_val truthy]; eexists; destruct s; reflexivity|]. exfalso. apply P. right. eauto.
Qed.
Lemma parent_dec s p : dinv s -> (p = VFalse \/ exists d', defined s p d' /\ d_sealed d' = false) \/ ~ (p = VFalse \/ exists d', defined s p d' /\ d_sealed d' = false).
Proof.
  intros _. destruct (eqp p VFalse) eqn:E; [apply eqp_eq in E; auto|]. assert (p <> VFalse) by (intros ->; discriminate).
  unfold defined. destruct (lookup_type (known s) p) as [d|]; [|right; intros [X|[d [X _]]]; congruence]. destruct (d_sealed d) eqn:SD; [|left; right; eauto].
  right. intros [X|[d' [X Y]]]; [auto|congruence].
Qed.
Lemma lookup_cons s k r d : known s = (r, d) :: k -> defined s r d. Proof. intros E. unfold defined. rewrite E. simpl. rewrite eqp_refl. auto. Qed.
Lemma def_inv s d name p uid descr : dinv s -> List.length descr = List.length (d_fields d) -> dinv (snd (dstep procs s (DDef d name p uid descr))).
Proof.
  intros I L. destruct (parent_dec s p I) as [P|P]; [|destruct (def_bad s d name p uid descr I P) as [e ->]; auto].
  destruct (def_ok s d name p uid descr I L P) as [r [s' [E [KN [RE [HE TE]]]]]].
  assert (RS : reachable procs (dw s')).
  { assert (X : dw s' = snd (rstep procs (dw s) (RType name p uid (bool_val (d_sealed d)) (bool_val (d_opaque d)) descr))).
    { unfold dstep in E. unfold make_type in E. destruct (truthy p); [destruct (rtdp (rw_heap (dw s)) p); [destruct (rtd_sealed (rw_heap (dw s)) p) as [sl|];
        [destruct (truthy sl)|]|]|]; try discriminate;
      destruct (rstep procs (dw s) (RType name p uid (bool_val (d_sealed d)) (bool_val (d_opaque d)) descr)) as [[] w]; try discriminate; injection E as _ <-; auto. }
    rewrite X. apply reach_step, (v_reach _ I). }
  rewrite E. cbn [snd]. destruct I as [R T A TB].
  assert (NEW : forall x d0, defined s x d0 -> x <> r).
  { intros x d0 D ->. destruct (T _ _ D) as [l [n' [p' [u' [pr' [f' [EQ [N _]]]]]]]]. subst r. injection EQ as <-.
    assert (List.length (heap_of s) < List.length (heap_of s)) by (apply nth_error_Some; congruence). lia. }
  assert (KEEP : forall x d0, defined s x d0 -> defined s' x d0).
  { intros x d0 D. assert (NX := NEW _ _ D). unfold defined. rewrite KN. simpl. destruct (eqp x r) eqn:Q; [apply eqp_eq in Q; contradiction|]. auto. }
  constructor; auto.
  - intros x d0 D. unfold defined in D. rewrite KN in D. simpl in D. destruct (eqp x r) eqn:Q.
    + injection D as <-. apply eqp_eq in Q. subst x. exists (List.length (heap_of s)), name, p, uid, VFalse, descr. split; auto.
      split; [rewrite HE, nth_error_app2, Nat.sub_diag by auto; reflexivity|]. split; auto. destruct P as [|[d' [D' SD]]]; auto. right. exists d'. auto.
    + destruct (T x d0 D) as [l [n' [p' [u' [pr' [f' [EQ [N [LF Q']]]]]]]]]. exists l, n', p', u', pr', f'. split; auto.
      split; [rewrite HE, nth_error_app1; auto; apply nth_error_Some; congruence|]. split; auto. destruct Q' as [|[d' [D' SD]]]; auto. right. exists d'. auto.
  - intros l fs N. rewrite HE in N. destruct (Nat.lt_ge_cases l (List.length (heap_of s))).
    + rewrite nth_error_app1 in N by auto. destruct (A l fs N) as [d0 D0]. eauto.
    + rewrite nth_error_app2 in N by auto. destruct (l - List.length (heap_of s)) as [|q] eqn:LE; [|destruct q; discriminate].
      exists d. replace l with (List.length (heap_of s)) by lia. rewrite <- RE. eapply lookup_cons; eauto.
  - intros x. rewrite TE. auto.
Qed.
Lemma call_step s r x args : dinv s ->
  (exists e, dstep procs s (DCall r x args) = (RErr e, s) /\ forall d k, defined s r d -> lookup_name (defines d) x = Some k -> call_op r k args = None) \/
  (exists d k o, defined s r d /\ lookup_name (defines d) x = Some k /\ call_op r k args = Some o /\
                 dstep procs s (DCall r x args) = (fst (rstep procs (dw s) o), DW (snd (rstep procs (dw s) o)) (known s))).
Proof.
  intros I. unfold dstep, defined. destruct (lookup_type (known s) r) as [d|]; [|left; eexists; split; [reflexivity|congruence]].
  destruct (lookup_name (defines d) x) as [k|] eqn:E; [|left; eexists; split; [reflexivity|congruence]].
  destruct (call_op r k args) as [o|] eqn:C; [|left; eexists; split; [reflexivity|congruence]]. right. exists d, k, o. destruct (rstep procs (dw s) o). auto.
Qed.
Lemma step_inv s c : dinv s -> well_formed c -> dinv (snd (dstep procs s c)).
Proof.
  intros I WF. destruct c as [d name p uid descr|r x args|c].
  - apply def_inv; auto.
  - destruct (call_step s r x args I) as [[e [-> _]]|[d [k [o [D [LN [CO ->]]]]]]]; [auto|]. apply plain_inv; auto. eapply call_plain; eauto.
  - cbn [dstep]. assert (X := plain_inv s (RElse c) I Logic.I). destruct (rstep procs (dw s) (RElse c)). auto.
Qed.
Lemma run_inv cs : forall s, dinv s -> Forall well_formed cs -> dinv (drun procs s cs).
Proof. induction cs as [|c cs IH]; intros s I F; auto. inversion F; subst. simpl. apply IH; auto. apply step_inv; auto. Qed.
Lemma started_inv s : started s -> dinv s.
Proof.
  intros [cs [F ->]]. apply run_inv; auto. constructor; cbn.
  - exists []. auto.
  - intros r d D. discriminate.
  - intros [|l] fs N; discriminate.
  - auto.
Qed.

(** ** Names *)
Lemma lookup_name_in l x k : symbol x -> NoDup (map fst l) -> (lookup_name l x = Some k <-> In (x, k) l).
Proof.
  intros SX. induction l as [|[y j] q IH]; intros ND; simpl; [split; [discriminate|intros []]|]. inversion ND as [|a b NI ND1]; subst.
  destruct (same_sym x y) eqn:E.
  - apply (same_sym_spec x y SX) in E. subst y. split.
    + intros H. injection H as ->. auto.
    + intros [H|H]; [congruence|]. exfalso. apply NI. apply in_map_iff. exists (x, k). auto.
  - rewrite (IH ND1). split; auto. intros [H|H]; auto. injection H as -> ->. assert (same_sym x x = true) by (apply same_sym_spec; auto). congruence.
Qed.
Lemma in_accs fs x k : forall i, In (x, k) (accs fs i) <-> exists j f, nth_error fs j = Some f /\ x = f_acc f /\ k = WGet (i + j).
Proof.
  induction fs as [|g fs IH]; intros i; simpl.
  - split; [intros []|]. intros [[|j] [f [N _]]]; discriminate.
  - rewrite IH. split.
    + intros [H|[j [f [N [E1 E2]]]]]; [injection H as <- <-; exists 0, g; rewrite Nat.add_0_r; auto|]. exists (S j), f. rewrite <- Nat.add_succ_comm. auto.
    + intros [[|j] [f [N [E1 E2]]]]; [left; simpl in N; injection N as ->; rewrite Nat.add_0_r in E2; congruence|]. right. exists j, f. rewrite Nat.add_succ_comm. auto.
Qed.
Lemma in_muts fs x k : forall i, In (x, k) (muts fs i) <-> exists j f, nth_error fs j = Some f /\ f_mut f = Some x /\ k = WPut (i + j).
Proof.
  induction fs as [|g fs IH]; intros i; simpl.
  - split; [intros []|]. intros [[|j] [f [N _]]]; discriminate.
  - assert (X : In (x, k) (muts fs (S i)) <-> exists j f, nth_error (g :: fs) (S j) = Some f /\ f_mut f = Some x /\ k = WPut (i + S j)).
    { rewrite IH. split; intros [j [f H]]; exists j, f; [rewrite Nat.add_succ_r|rewrite Nat.add_succ_r in H]; auto. }
    destruct (f_mut g) as [m|] eqn:E; [simpl|]; rewrite X; split.
    + intros [H|[j [f H]]]; [injection H as <- <-; exists 0, g; rewrite Nat.add_0_r; auto|exists (S j), f; auto].
    + intros [[|j] [f [N [E1 E2]]]]; [left; injection N as <-; rewrite Nat.add_0_r in E2; congruence|right; exists j, f; auto].
    + intros [j [f H]]. exists (S j), f; auto.
    + intros [[|j] [f [N [E1 E2]]]]; [injection N as <-; congruence|exists j, f; auto].
Qed.
Lemma distinct_in d x k : distinct d -> In (x, k) (defines d) -> lookup_name (defines d) x = Some k.
Proof.
  intros [ND SY] H. apply lookup_name_in; auto. rewrite Forall_forall in SY. apply SY. apply in_map_iff. exists (x, k). auto.
Qed.
Lemma name_make d : distinct d -> lookup_name (defines d) (d_make d) = Some WMake.
Proof. intros D. apply distinct_in; auto. simpl. auto. Qed.
Lemma name_is d : distinct d -> lookup_name (defines d) (d_is d) = Some WIs.
Proof. intros D. apply distinct_in; auto. simpl. auto. Qed.
Lemma name_acc d i f : distinct d -> nth_error (d_fields d) i = Some f -> lookup_name (defines d) (f_acc f) = Some (WGet i).
Proof. intros D N. apply distinct_in; auto. do 3 right. apply in_or_app. left. apply in_accs. exists i, f. auto. Qed.
Lemma name_mut d i f m : distinct d -> nth_error (d_fields d) i = Some f -> f_mut f = Some m -> lookup_name (defines d) m = Some (WPut i).
Proof. intros D N E. apply distinct_in; auto. do 3 right. apply in_or_app. right. apply in_muts. exists i, f. auto. Qed.
Lemma lookup_in l x k : lookup_name l x = Some k -> exists y, In (y, k) l /\ same_sym x y = true.
Proof. induction l as [|[y j] q IH]; simpl; [discriminate|]. destruct (same_sym x y) eqn:E; [intros H; injection H as ->; eauto|]. intros H. destruct (IH H) as [z [? ?]]. eauto. Qed.
Lemma same_sym_eq a b : same_sym a b = true -> a = b.
Proof.
  intros H. apply same_sym_spec; auto. destruct a; try discriminate; [left|right]; eauto.
Qed.
Lemma lookup_put d x i : lookup_name (defines d) x = Some (WPut i) -> exists f, nth_error (d_fields d) i = Some f /\ f_mut f = Some x.
Proof.
  intros H. apply lookup_in in H as [y [H E]]. apply same_sym_eq in E. subst y. simpl in H. destruct H as [H|[H|[H|H]]]; try discriminate.
  apply in_app_or in H as [H|H].
  - apply in_accs in H as [j [f [_ [_ X]]]]. discriminate.
  - apply in_muts in H as [j [f [N [E X]]]]. injection X as ->. eauto.
Qed.
Lemma call_named s r d x k args : defined s r d -> lookup_name (defines d) x = Some k ->
  dstep procs s (DCall r x args) = match call_op r k args with Some o => (fst (rstep procs (dw s) o), DW (snd (rstep procs (dw s) o)) (known s)) | None => (RErr (EArity "procedure"), s) end.
Proof. unfold defined. intros D L. cbn [dstep]. rewrite D, L. destruct (call_op r k args) as [o|]; auto. destruct (rstep procs (dw s) o); auto. Qed.
Lemma defined_descr s r d : dinv s -> defined s r d -> exists p, descriptor (heap_of s) r p (List.length (d_fields d)) /\ (p = VFalse \/ exists d', defined s p d' /\ d_sealed d' = false).
Proof.
  intros I D. destruct (v_types _ I r d D) as [l [name [p [uid [prot [fields [-> [N [L P]]]]]]]]]. exists p. split; auto. exists l, name, uid. do 4 eexists. eauto.
Qed.
Lemma world_eta s : DW (dw s) (known s) = s. Proof. destruct s; auto. Qed.

(** * The form *)

(** (define-record-type name clause ...): the accepted clauses, what they declare, and
    the names of the constructor and the predicate.  No two clauses are of one kind. *)
Theorem C62_form name n cls d : name_of name n ->
  (define_record_type name cls = Some d <->
   d_name d = name /\ d_make d = OSym (s2b "make-" ++ n) /\ d_is d = OSym (n ++ s2b "?") /\
   exists ks, Forall2 (says n) cls ks /\ NoDup (map kind ks) /\ summary ks (d_clauses d)).
Proof.
  intros NM. assert (X := NM). apply name_symbol in X as [SY TX]. assert (SP := SY). apply symbolp_spec in SP. unfold define_record_type.
  assert (TL : to_list name = None). { destruct (to_list name) as [l|] eqn:E; auto. apply to_list_spec in E. subst name. edestruct olist_symbol; eauto. }
  rewrite TL, SP, TX. assert (CL := fun st1 => clause_loop_spec name cls SY [] no_clauses st1 summary_nil (NoDup_nil _)). rewrite TX in CL. simpl in CL. split.
  - destruct (clause_loop name cls no_clauses) as [st|] eqn:E; [|discriminate]. simpl. intros H. injection H as <-. cbn. split; auto. split; auto. split; auto. apply CL; auto.
  - intros [E1 [E2 [E3 KS]]]. apply CL in KS. rewrite KS. destruct d; cbn in *; subst; auto.
Qed.
(** (define-record-type (name constructor predicate) clause ...) *)
Theorem C62_full_form name n c p cls d : name_of name n ->
  (define_record_type (olist [name; c; p]) cls = Some d <->
   d_name d = name /\ d_make d = c /\ d_is d = p /\
   exists ks, Forall2 (says n) cls ks /\ NoDup (map kind ks) /\ summary ks (d_clauses d)).
Proof.
  intros NM. assert (X := NM). apply name_symbol in X as [SY TX]. assert (SP := SY). apply symbolp_spec in SP. unfold define_record_type.
  rewrite to_olist, SP. assert (CL := fun st1 => clause_loop_spec name cls SY [] no_clauses st1 summary_nil (NoDup_nil _)). rewrite TX in CL. simpl in CL. split.
  - destruct (clause_loop name cls no_clauses) as [st|] eqn:E; [|discriminate]. simpl. intros H. injection H as <-. cbn. split; auto. split; auto. split; auto. apply CL; auto.
  - intros [E1 [E2 [E3 KS]]]. apply CL in KS. rewrite KS. destruct d; cbn in *; subst; auto.
Qed.
Theorem C62_other_forms spec cls d : define_record_type spec cls = Some d -> symbol spec \/ exists name c p, symbol name /\ spec = olist [name; c; p].
Proof.
  unfold define_record_type. destruct (to_list spec) as [l|] eqn:E.
  - apply to_list_spec in E. destruct l as [|a [|b [|c [|e l]]]];
      try (destruct (symbolp spec) eqn:SP; [apply symbolp_spec in SP; auto|discriminate]). destruct (symbolp a) eqn:SP; [|discriminate]. apply symbolp_spec in SP. right. eauto.
  - destruct (symbolp spec) eqn:SP; [apply symbolp_spec in SP; auto|discriminate].
Qed.

(** * Programs *)

(** A definition succeeds exactly when its parent is #f or a type that is not sealed.
    It makes a type that did not exist, whose parent is the given one and which has a
    field for each declaration. *)
Theorem C62_define s d name p uid descr : started s -> well_formed (DDef d name p uid descr) ->
  let c := DDef d name p uid descr in let s' := snd (dstep procs s c) in
  let allowed := p = VFalse \/ exists d', defined s p d' /\ d_sealed d' = false in
  (allowed -> exists r, fst (dstep procs s c) = ROk r /\ defined s' r d /\ descriptor (heap_of s') r p (List.length (d_fields d)) /\
     (forall d', ~ defined s r d') /\ (forall r' d', defined s r' d' -> defined s' r' d')) /\
  (~ allowed -> (exists e, fst (dstep procs s c) = RErr e) /\ s' = s).
Proof.
  intros ST WF c s' allowed. apply started_inv in ST. split.
  - intros A. destruct (def_ok s d name p uid descr ST WF A) as [r [s1 [E [KN [RE [HE TE]]]]]]. unfold s', c. rewrite E. cbn [fst snd]. exists r.
    assert (NEW : forall x d0, defined s x d0 -> x <> r).
    { intros x d0 D ->. destruct (v_types _ ST _ _ D) as [l [n' [p' [u' [pr' [f' [EQ [N _]]]]]]]]. subst r. injection EQ as <-.
      assert (List.length (heap_of s) < List.length (heap_of s)) by (apply nth_error_Some; congruence). lia. }
    split; auto. split; [eapply lookup_cons; eauto|]. split.
    + exists (List.length (heap_of s)). do 6 eexists. split; auto. split; [rewrite HE, nth_error_app2, Nat.sub_diag by auto; reflexivity|]. exact WF.
    + split; [intros d' D; exact (NEW _ _ D eq_refl)|]. intros r' d' D. assert (NX := NEW _ _ D). unfold defined. rewrite KN. simpl.
      destruct (eqp r' r) eqn:Q; [apply eqp_eq in Q; contradiction|]. auto.
  - intros A. destruct (def_bad s d name p uid descr ST A) as [e E]. unfold s', c. rewrite E. split; [exists e|]; auto.
Qed.

(** No type ever has a sealed type as parent; the records of a sealed type are those
    that its own constructor made. *)
Theorem C62_sealed s r d : started s -> defined s r d -> d_sealed d = true ->
  (forall r' n, ~ descriptor (heap_of s) r' r n) /\ (forall v, instance (heap_of s) v r -> exists fs, record_of (heap_of s) v r fs).
Proof.
  intros ST D SD. apply started_inv in ST.
  assert (NP : forall r' n, ~ descriptor (heap_of s) r' r n).
  { intros r' n DE. assert (X := DE). destruct X as [l [name [uid [sl [op [pr [fs [-> [N LN]]]]]]]]]. destruct (v_all _ ST l _ N) as [d' D'].
    destruct (defined_descr _ _ _ ST D') as [p [D1 P]]. destruct (descriptor_fun _ _ _ _ _ _ DE D1) as [<- _].
    destruct P as [->|[d2 [D2 S2]]]; [|unfold defined in *; congruence]. destruct (v_types _ ST _ _ D) as [l2 [? [? [? [? [? [X _]]]]]]]. discriminate. }
  split; auto. intros v [t [fs [RO SU]]]. exists fs. replace r with t; auto. clear RO.
  induction SU as [t0 p n DE|t0 p n u DE NE SU IH]; auto. specialize (IH D NP). subst p. edestruct NP; eauto.
Qed.

(** The constructor takes an argument for each field of the type and its ancestors, those
    of the ancestors first, and makes a record that did not exist; with any other number
    of arguments it is an error and nothing happens. *)
Theorem C62_constructor s r d k args : started s -> defined s r d -> distinct d -> inherited (heap_of s) r k ->
  (List.length args = k + List.length (d_fields d) ->
     exists v, call s r (d_make d) args = ROk v /\ record_of (heap_of (after s r (d_make d) args)) v r args /\ (forall r' fs, ~ record_of (heap_of s) v r' fs)) /\
  (List.length args <> k + List.length (d_fields d) -> (exists e, call s r (d_make d) args = RErr e) /\ after s r (d_make d) args = s).
Proof.
  intros ST D DI INH. apply started_inv in ST. destruct (defined_descr _ _ _ ST D) as [p [DE _]]. unfold call, after, heap_of.
  rewrite (call_named s r d _ _ args D (name_make d DI)). cbn [call_op fst snd dw known].
  destruct (C45_constructor procs (dw s) r p _ k args (v_reach _ ST) DE INH) as [A B]. split; [exact A|]. intros H. destruct (B H) as [E1 E2]. rewrite E2, world_eta. auto.
Qed.

(** The predicate holds of the records of the type and of the types derived from it, and
    of nothing else. *)
Theorem C62_predicate s r d v : started s -> defined s r d -> distinct d ->
  (instance (heap_of s) v r -> call s r (d_is d) [v] = ROk VTrue) /\ (~ instance (heap_of s) v r -> call s r (d_is d) [v] = ROk VFalse) /\ after s r (d_is d) [v] = s.
Proof.
  intros ST D DI. apply started_inv in ST. destruct (defined_descr _ _ _ ST D) as [p [DE _]]. unfold call, after.
  rewrite (call_named s r d _ _ [v] D (name_is d DI)). cbn [call_op fst snd].
  destruct (C45_predicate procs (dw s) r v p _ (v_reach _ ST) DE) as [A B]. split; auto. split; auto. cbn [rstep snd]. apply world_eta.
Qed.

(** The accessor of field [i] of [t], on a record with the fields [args] of a type [r]
    that is [t] or derived from it. *)
Theorem C62_accessor s r args v t d i f k : started s -> record_of (heap_of s) v r args -> subtype (heap_of s) r t -> defined s t d -> distinct d ->
  inherited (heap_of s) t k -> nth_error (d_fields d) i = Some f ->
  exists x, nth_error args (k + i) = Some x /\ call s t (f_acc f) [v] = ROk x /\ after s t (f_acc f) [v] = s.
Proof.
  intros ST RO SU D DI INH N. apply started_inv in ST. destruct (defined_descr _ _ _ ST D) as [p [DE _]]. unfold call, after.
  rewrite (call_named s t d _ _ [v] D (name_acc d i f DI N)). cbn [call_op fst snd]. assert (L : i < List.length (d_fields d)) by (apply nth_error_Some; congruence).
  destruct (C45_initial_value procs (dw s) r args v t p _ k i (v_reach _ ST) RO SU DE INH L) as [x [E1 E2]]. exists x. split; auto. split; auto. cbn [rstep snd]. apply world_eta.
Qed.

(** Accessors and mutators refuse everything that is not a record of the type. *)
Theorem C62_rejects s t d i f v : started s -> defined s t d -> distinct d -> nth_error (d_fields d) i = Some f -> ~ instance (heap_of s) v t ->
  (exists e, call s t (f_acc f) [v] = RErr e) /\
  (forall m x, f_mut f = Some m -> (exists e, call s t m [v; x] = RErr e) /\ after s t m [v; x] = s).
Proof.
  intros ST D DI N NI. apply started_inv in ST. unfold call, after. split.
  - rewrite (call_named s t d _ _ [v] D (name_acc d i f DI N)). cbn [call_op fst snd]. apply (C45_rejects procs (dw s) t v _ VFalse (v_reach _ ST) NI).
  - intros m x E. rewrite (call_named s t d _ _ [v; x] D (name_mut d i f m DI N E)). cbn [call_op fst snd].
    destruct (C45_rejects procs (dw s) t v (VFix (Z.of_nat i)) x (v_reach _ ST) NI) as [_ [A B]]. rewrite B, world_eta. auto.
Qed.

(** The value last given to the mutator of the field [f] of [t] for the record [v] *)
Definition sets (f : field) (m : obj) : bool := match f_mut f with Some m' => same_sym m m' | None => false end.
Fixpoint last_set (t : val) (f : field) (v : val) (cs : list cmd) (x : val) : val :=
  match cs with
  | [] => x
  | DCall t' m [v'; y] :: q => last_set t f v q (if eqp t t' && sets f m && eqp v v' then y else x)
  | _ :: q => last_set t f v q x
  end.
Lemma last_set_cons t f v c q x : last_set t f v (c :: q) x = last_set t f v q (last_set t f v [c] x).
Proof. destruct c as [| ? ? [|a [|b [|e l]]] |]; reflexivity. Qed.
(** a step is a step of the records, or nothing *)
Lemma step_op s c t d f i v x : dinv s -> well_formed c -> defined s t d -> distinct d -> nth_error (d_fields d) i = Some f ->
  (exists o, dw (snd (dstep procs s c)) = snd (rstep procs (dw s) o) /\ last_set t f v [c] x = last_store t (VFix (Z.of_nat i)) v [o] x) \/
  (snd (dstep procs s c) = s /\ last_set t f v [c] x = x).
Proof.
  intros I WF D DI N. destruct c as [d0 name p uid descr|r m args|c].
  - destruct (parent_dec s p I) as [P|P]; [|destruct (def_bad s d0 name p uid descr I P) as [e ->]; auto]. left.
    destruct (def_ok s d0 name p uid descr I WF P) as [r [s' [E _]]]. rewrite E. cbn [snd].
    exists (RType name p uid (bool_val (d_sealed d0)) (bool_val (d_opaque d0)) descr). split; auto.
    unfold dstep in E. unfold make_type in E. destruct (truthy p); [destruct (rtdp (rw_heap (dw s)) p); [destruct (rtd_sealed (rw_heap (dw s)) p) as [sl|];
        [destruct (truthy sl)|]|]|]; try discriminate;
      destruct (rstep procs (dw s) (RType name p uid (bool_val (d_sealed d0)) (bool_val (d_opaque d0)) descr)) as [[] w]; try discriminate; injection E as _ <-; auto.
  - destruct (call_step s r m args I) as [[e [E NO]]|[d1 [k [o [D1 [LN [CO E]]]]]]].
    + right. rewrite E. split; auto. destruct args as [|a [|b [|g l]]]; auto. cbn [last_set]. destruct (eqp t r) eqn:Q; auto. apply eqp_eq in Q. subst r.
      unfold sets. destruct (f_mut f) as [m'|] eqn:FM; auto. destruct (same_sym m m') eqn:SM; auto. apply same_sym_eq in SM. subst m'. exfalso.
      specialize (NO d (WPut i) D (name_mut d i f m DI N FM)). discriminate.
    + left. exists o. rewrite E. cbn [snd dw]. split; auto. cbn [last_set].
      assert (MUT : forall m', eqp t r = true -> f_mut f = Some m' -> same_sym m m' = true -> k = WPut i).
      { intros m' Q FM SM. apply eqp_eq in Q. subst r. apply same_sym_eq in SM. subst m'. assert (X := name_mut d i f m DI N FM). unfold defined in *. congruence. }
      destruct k as [| | |j|j]; cbn [call_op] in CO; destruct args as [|a [|b [|g l]]]; try discriminate; injection CO as <-; auto; cbn [last_store].
      * destruct (eqp t r) eqn:Q; auto. unfold sets. destruct (f_mut f) as [m'|] eqn:FM; auto. destruct (same_sym m m') eqn:SM; auto. specialize (MUT m' eq_refl eq_refl SM). discriminate.
      * destruct (eqp t r) eqn:Q; auto. cbn [andb]. apply eqp_eq in Q. subst r. assert (d1 = d) by (unfold defined in *; congruence). subst d1.
        destruct (lookup_put _ _ _ LN) as [g [NG FG]]. replace (sets f m) with (eqp (VFix (Z.of_nat i)) (VFix (Z.of_nat j))); auto.
        unfold sets. destruct (eqp (VFix (Z.of_nat i)) (VFix (Z.of_nat j))) eqn:Q.
        -- apply eqp_eq in Q. injection Q as Q. apply Nat2Z.inj in Q. subst j. assert (g = f) by congruence. subst g. rewrite FG. symmetry. apply same_sym_spec; auto.
           destruct DI as [_ SY]. rewrite Forall_forall in SY. apply SY. apply in_map_iff. exists (m, WPut i). split; auto. do 3 right. apply in_or_app. right. apply in_muts. exists i, f. auto.
        -- destruct (f_mut f) as [m'|] eqn:FM; auto. destruct (same_sym m m') eqn:SM; auto. specialize (MUT m' eq_refl eq_refl SM). injection MUT as ->. rewrite eqp_refl in Q. discriminate.
  - left. exists (RElse c). split; auto. cbn [dstep]. destruct (rstep procs (dw s) (RElse c)); auto.
Qed.
Lemma defined_kept s c t d : dinv s -> well_formed c -> defined s t d -> defined (snd (dstep procs s c)) t d.
Proof.
  intros I WF D. destruct c as [d0 name p uid descr|r m args|c].
  - destruct (parent_dec s p I) as [P|P]; [|destruct (def_bad s d0 name p uid descr I P) as [e ->]; auto].
    destruct (def_ok s d0 name p uid descr I WF P) as [r [s' [E [KN [RE _]]]]]. rewrite E. cbn [snd]. unfold defined. rewrite KN. simpl. destruct (eqp t r) eqn:Q; auto.
    apply eqp_eq in Q. exfalso. destruct (v_types _ I _ _ D) as [l [n' [p' [u' [pr' [f' [EQ [N _]]]]]]]]. subst t r. injection EQ as <-.
    assert (List.length (heap_of s) < List.length (heap_of s)) by (apply nth_error_Some; congruence). lia.
  - destruct (call_step s r m args I) as [[e [-> _]]|[d1 [k [o [D1 [LN [CO ->]]]]]]]; auto.
  - cbn [dstep]. destruct (rstep procs (dw s) (RElse c)); auto.
Qed.

(** After any further commands, an accessor returns the value last stored with the
    mutator of the same field for the same record. *)
Theorem C62_history s t d i f v : started s -> defined s t d -> distinct d -> nth_error (d_fields d) i = Some f -> instance (heap_of s) v t ->
  exists x, forall cs, Forall well_formed cs -> call (drun procs s cs) t (f_acc f) [v] = ROk (last_set t f v cs x).
Proof.
  intros ST D DI N IN. apply started_inv in ST. destruct (defined_descr _ _ _ ST D) as [p [DE _]]. assert (L : i < List.length (d_fields d)) by (apply nth_error_Some; congruence).
  destruct IN as [r [fs [RO SU]]]. assert (G := reachable_good _ _ (v_reach _ ST)). destruct (descr_inherited _ t p _ G DE) as [k INH].
  destruct (get_ok _ _ _ _ _ _ _ _ _ G RO SU DE INH L) as [E LT]. destruct (nth_error fs (k + i)) as [x|] eqn:Q; [|apply nth_error_None in Q; lia]. exists x.
  assert (SX : stored (heap_of s) t v i x) by exact E. clear E LT Q INH k G. intros cs. revert s x fs ST D DE RO SU SX. induction cs as [|c cs IH]; intros s x fs ST D DE RO SU SX WF.
  - unfold call. simpl drun. rewrite (call_named s t d _ _ [v] D (name_acc d i f DI N)). cbn [call_op fst rstep last_set]. exact SX.
  - inversion WF as [|c0 q W1 W2]; subst. rewrite last_set_cons. cbn [drun]. assert (I' := step_inv s c ST W1). assert (D' := defined_kept s c t d ST W1 D).
    destruct (step_op s c t d f i v x ST W1 D DI N) as [[o [EW EL]]|[-> ->]]; [|eapply IH; eauto]. rewrite EL.
    assert (G := reachable_good _ _ (v_reach _ ST)). destruct (step_kept procs (dw s) o G) as [G1 K1].
    assert (RO1 : exists fs1, record_of (rw_heap (snd (rstep procs (dw s) o))) v r fs1).
    { destruct RO as [l [-> [N0 NB]]]. destruct (K1 _ _ _ N0) as [fs1 [N1 _]]. exists fs1, l. auto. }
    destruct RO1 as [fs1 RO1]. apply (IH _ _ fs1); auto; unfold heap_of; rewrite EW; auto.
    + eapply descriptor_kept; eauto.
    + eapply subtype_kept; eauto.
    + eapply step_stored; eauto.
Qed.

(** A field declared without mutator never changes. *)
Theorem C62_immutable s t d i f v : started s -> defined s t d -> distinct d -> nth_error (d_fields d) i = Some f -> f_mut f = None -> instance (heap_of s) v t ->
  exists x, forall cs, Forall well_formed cs -> call (drun procs s cs) t (f_acc f) [v] = ROk x.
Proof.
  intros ST D DI N FM IN. destruct (C62_history s t d i f v ST D DI N IN) as [x H]. exists x. intros cs WF. rewrite (H cs WF). f_equal. clear WF.
  clear H. revert x. induction cs as [|c cs IH]; intros x; auto. rewrite last_set_cons. replace (last_set t f v [c] x) with x.
  - apply IH.
  - destruct c as [| ? ? [|a [|b [|e l]]] |]; auto. cbn [last_set]. unfold sets. rewrite FM, andb_false_r. auto.
Qed.

(** A mutator stores its argument. *)
Theorem C62_mutator s t d i f m v x : started s -> defined s t d -> distinct d -> nth_error (d_fields d) i = Some f -> f_mut f = Some m -> instance (heap_of s) v t ->
  (exists y, call s t m [v; x] = ROk y) /\ call (after s t m [v; x]) t (f_acc f) [v] = ROk x.
Proof.
  intros ST D DI N FM IN. split.
  - assert (I := started_inv _ ST). unfold call. rewrite (call_named s t d _ _ [v; x] D (name_mut d i f m DI N FM)). cbn [call_op fst rstep].
    destruct (defined_descr _ _ _ I D) as [p [DE _]]. assert (L : i < List.length (d_fields d)) by (apply nth_error_Some; congruence). destruct IN as [r [fs [RO SU]]].
    assert (G := reachable_good _ _ (v_reach _ I)). destruct (descr_inherited _ t p _ G DE) as [k INH]. destruct (put_ok _ _ _ _ _ _ _ _ _ x G RO SU DE INH L) as [l [_ E]].
    unfold heap_of in E. rewrite E. cbn. eauto.
  - destruct (C62_history s t d i f v ST D DI N IN) as [x0 H]. assert (X := H [DCall t m [v; x]]). cbn [drun last_set] in X. unfold after. rewrite X by (repeat constructor).
    unfold sets. rewrite FM, !eqp_refl. replace (same_sym m m) with true; auto. symmetry. apply same_sym_spec; auto.
    destruct DI as [_ SY]. rewrite Forall_forall in SY. apply SY. apply in_map_iff. exists (m, WPut i). split; auto. do 3 right. apply in_or_app. right. apply in_muts. exists i, f. auto.
Qed.
End Programs.

Lemma attribute_spec (c : option obj) (P : bool -> Prop) : (forall e, c = Some e <-> exists b, e = obool b /\ P b) ->
  (match c with Some OTrue => true | _ => false end = true <-> P true).
Proof.
  intros H. split.
  - intros E. destruct c as [e|]; [|discriminate]. assert (e = OTrue) as -> by (destruct e; try discriminate; auto).
    destruct (proj1 (H OTrue) eq_refl) as [[] [X Y]]; [exact Y|discriminate].
  - intros X. rewrite (proj2 (H OTrue)); [reflexivity|]. exists true. auto.
Qed.
(** Sealed, opaque and the fields are what the clauses say. *)
Theorem C62_attributes d ks : summary ks (d_clauses d) ->
  (d_sealed d = true <-> In (SSealed true) ks) /\ (d_opaque d = true <-> In (SOpaque true) ks) /\
  (forall fs, In (SFields fs) ks -> d_fields d = fs) /\ ((forall fs, ~ In (SFields fs) ks) -> d_fields d = []).
Proof.
  intros SM. split; [|split; [|split]].
  - apply (attribute_spec _ (fun b => In (SSealed b) ks)), (s_sealed _ _ SM).
  - apply (attribute_spec _ (fun b => In (SOpaque b) ks)), (s_opaque _ _ SM).
  - intros fs H. unfold d_fields. apply (s_fields _ _ SM) in H. now rewrite H.
  - intros H. unfold d_fields. destruct (c_fields (d_clauses d)) as [fs|] eqn:E; [|reflexivity]. exfalso. apply (H fs). now apply (s_fields _ _ SM).
Qed.
(** record? holds of the records of the types that are not opaque. *)
Theorem C62_opaque procs s r d v fs : started procs s -> defined s r d -> record_of (heap_of s) v r fs -> recordp (heap_of s) v = ROk (negb (d_opaque d)).
Proof.
  intros ST D [l [-> [N NB]]]. apply started_inv in ST. destruct (v_types _ _ ST r d D) as [lr [name [p [uid [prot [fields [-> [NR _]]]]]]]].
  unfold recordp, record_valuep, rec_rtd, rtd_opaque, rec_ref, rec_at. rewrite N. change (eqp (VPtr lr) VBaseRtd) with false. cbn [negb need rbind]. rewrite NR. cbn [nth_error need rbind]. destruct (d_opaque d); reflexivity.
Qed.

(** A type with a writer (methods of gen:custom-write) cannot be a parent: the
    definition of the child fails. *)
Theorem C62_custom_write_parent_refuted procs w d name r uid descr wr : rtdp (rw_heap w) r = true -> rtd_sealed (rw_heap w) r = Some VFalse ->
  tab_writer (rw_tabs w) r = Some wr -> rtdp (rw_heap w) wr = false -> tab_equal (rw_tabs w) r = None -> tab_hash (rw_tabs w) r = None ->
  make_type procs w name r uid d descr = (RErr (EUnbound "v_"), w).
Proof.
  intros R S W NW E H. unfold make_type. assert (T : truthy r = true) by (destruct r; auto). rewrite T, R, S. cbn [truthy]. eapply C45_writer_refuted; eauto.
Qed.
Example C62_custom_write_parent_refuted_met : let procs v := eqp v (VPtr 1) in
  let w := snd (rrun procs rworld0 [RType (VSym (s2b "base")) VFalse VFalse VFalse VFalse []; RElse (COther 0); RTab 2 (VPtr 0) (VPtr 1)]) in
  rtdp (rw_heap w) (VPtr 0) = true /\ rtd_sealed (rw_heap w) (VPtr 0) = Some VFalse /\ tab_writer (rw_tabs w) (VPtr 0) = Some (VPtr 1) /\
  rtdp (rw_heap w) (VPtr 1) = false /\ tab_equal (rw_tabs w) (VPtr 0) = None /\ tab_hash (rw_tabs w) (VPtr 0) = None.
Proof. repeat split. Qed.

(** ** Examples *)
Definition o_list (l : list string) : obj := olist (map sym l).
(** (define-record-type point (fields x (mutable y)))
    (define-record-type (cpoint mk-cpoint cpoint?) (sealed #t) (parent point) (fields (mutable hue cp-hue cp-hue!))) *)
Definition point_clauses : list obj := [olist [sym "fields"; sym "x"; o_list ["mutable"; "y"]%string]].
Definition cpoint_clauses : list obj :=
  [olist [sym "sealed"; OTrue]; o_list ["parent"; "point"]%string; olist [sym "fields"; o_list ["mutable"; "hue"; "cp-hue"; "cp-hue!"]%string]].
Definition point_def : rdef := mkDef (sym "point") (sym "make-point") (sym "point?")
  (mkClauses None None None None None (Some [mkField (sym "x") (sym "point-x") None; mkField (sym "y") (sym "point-y") (Some (sym "point-y-set!"))]) []).
Definition cpoint_def : rdef := mkDef (sym "cpoint") (sym "mk-cpoint") (sym "cpoint?")
  (mkClauses (Some (sym "point")) None (Some OTrue) None None (Some [mkField (sym "hue") (sym "cp-hue") (Some (sym "cp-hue!"))]) []).
Example C62_form_met : define_record_type (sym "point") point_clauses = Some point_def /\
  define_record_type (o_list ["cpoint"; "mk-cpoint"; "cpoint?"]%string) cpoint_clauses = Some cpoint_def.
Proof. split; reflexivity. Qed.
Example C62_form_refused :
  define_record_type (sym "point") (point_clauses ++ point_clauses) = None /\                      (* two fields clauses *)
  define_record_type (sym "point") [olist [sym "sealed"; OFix 1]] = None /\
  define_record_type (sym "point") [olist [sym "fields"; OStr (s2b "x")]] = None /\
  define_record_type (sym "point") [o_list ["colour"; "red"]%string] = None /\
  define_record_type (OFix 3) [] = None /\
  define_record_type (o_list ["a"; "b"]%string) [] = None.
Proof. repeat split. Qed.
Definition ex_procs (v : val) : bool := false.
(** allocates the field descriptors, defines point and cpoint, makes a cpoint and sets y *)
Definition ex_cmds : list cmd :=
  [DElse (COther 0); DElse (COther 0); DElse (COther 0);
   DDef point_def (VSym (s2b "point")) VFalse VFalse [VPtr 0; VPtr 1];
   DDef cpoint_def (VSym (s2b "cpoint")) (VPtr 3) VFalse [VPtr 2];
   DCall (VPtr 4) (sym "mk-cpoint") [VFix 1; VFix 2; VFix 3]].
Definition ex_state : dworld := drun ex_procs dworld0 ex_cmds.
Example C62_started_met : started ex_procs ex_state.
Proof. exists ex_cmds. split; auto. repeat constructor. Qed.
Lemma nodup_eqb (l : list obj) : Forall symbol l -> (fix go l := match l with [] => true | a :: q => negb (existsb (same_sym a) q) && go q end) l = true -> NoDup l.
Proof.
  induction l as [|a l IH]; intros F E; constructor; inversion F; subst; apply andb_true_iff in E as [E1 E2]; auto.
  intros H. apply negb_true_iff in E1. assert (existsb (same_sym a) l = true); [|congruence]. apply existsb_exists. exists a. split; auto. apply same_sym_spec; auto.
Qed.
Example C62_distinct_met : distinct point_def /\ distinct cpoint_def.
Proof.
  assert (A : Forall symbol (map fst (defines point_def)) /\ Forall symbol (map fst (defines cpoint_def))).
  { split; cbn; repeat (apply Forall_cons; [left; eexists; reflexivity|]); apply Forall_nil. }
  destruct A as [A1 A2]. split; split; auto; apply nodup_eqb; auto.
Qed.
Example C62_defined_met : defined ex_state (VPtr 3) point_def /\ defined ex_state (VPtr 4) cpoint_def.
Proof. split; reflexivity. Qed.
Example C62_instance_met : record_of (heap_of ex_state) (VPtr 5) (VPtr 4) [VFix 1; VFix 2; VFix 3] /\ subtype (heap_of ex_state) (VPtr 4) (VPtr 3) /\
  inherited (heap_of ex_state) (VPtr 4) 2 /\ instance (heap_of ex_state) (VPtr 5) (VPtr 3).
Proof.
  assert (D3 : descriptor (heap_of ex_state) (VPtr 3) VFalse 2) by (do 7 eexists; split; [reflexivity|]; split; reflexivity).
  assert (D4 : descriptor (heap_of ex_state) (VPtr 4) (VPtr 3) 1) by (do 7 eexists; split; [reflexivity|]; split; reflexivity).
  assert (RO : record_of (heap_of ex_state) (VPtr 5) (VPtr 4) [VFix 1; VFix 2; VFix 3]) by (exists 5; split; [reflexivity|]; split; [reflexivity|discriminate]).
  assert (SU : subtype (heap_of ex_state) (VPtr 4) (VPtr 3)) by (eapply SubParent; [exact D4|discriminate|]; eapply SubSelf; exact D3).
  split; auto. split; auto. split; [|exists (VPtr 4); eauto]. change 2 with (0 + 2). eapply InhChild; [exact D4|discriminate|exact D3|]. eapply InhRoot. exact D3.
Qed.
Example C62_run : call ex_procs ex_state (VPtr 3) (sym "point-y") [VPtr 5] = ROk (VFix 2) /\
  call ex_procs (after ex_procs ex_state (VPtr 3) (sym "point-y-set!") [VPtr 5; VFix 9]) (VPtr 3) (sym "point-y") [VPtr 5] = ROk (VFix 9) /\
  call ex_procs ex_state (VPtr 4) (sym "cp-hue") [VPtr 5] = ROk (VFix 3) /\ call ex_procs ex_state (VPtr 3) (sym "point?") [VPtr 5] = ROk VTrue /\
  (exists e, call ex_procs ex_state (VPtr 4) (sym "mk-cpoint") [VFix 1] = RErr e) /\
  (exists e, fst (dstep ex_procs ex_state (DDef point_def (VSym (s2b "q")) (VPtr 4) VFalse [VPtr 0; VPtr 1])) = RErr e).
Proof. repeat split; eexists; reflexivity. Qed.

Print Assumptions C62_form.
Print Assumptions C62_full_form.
Print Assumptions C62_other_forms.
Print Assumptions C62_define.
Print Assumptions C62_sealed.
Print Assumptions C62_constructor.
Print Assumptions C62_predicate.
Print Assumptions C62_accessor.
Print Assumptions C62_rejects.
Print Assumptions C62_history.
Print Assumptions C62_immutable.
Print Assumptions C62_mutator.
Print Assumptions C62_attributes.
Print Assumptions C62_opaque.
Print Assumptions C62_custom_write_parent_refuted.
