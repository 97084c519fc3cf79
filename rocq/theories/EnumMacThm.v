(** C60: define-enumeration and the macros it defines. *)
From Coq Require Import ZArith NArith Bool Ascii String List Arith Lia.
From Verif Require Import Base Decimal Heap Ast Check Reader Expand LibRead LibReadProofs StxCase StxCaseProofs StxCaseThm Template TemplateProofs TemplateThm SynRules SynRulesProofs SynRulesThm MacroProofs Derived DerivedStx DerivedStxProofs DerivedStxThm GenTemp GenTempThm EnumMac.
Import ListNotations.
Local Open Scope list_scope.
Local Open Scope nat_scope.

(** ** The source text *)
Definition enum_pattern_source : string := "(_ name (values ...) constructor)".
(** enum.min 204-220 *)
Definition enum_template_source : string :=
  "(begin
     (define id (make-enumeration '(values ...)))
     (define-syntax (constructor stx)
       (syntax-case stx ()
         [(_ elts ...)
          #'((enum-set-constructor id) '(elts ...))]
         [(_ . _)
          (raise-syntax-error 'constructor ""bad syntax"" stx)]))
     (define-syntax (name stx)
       (syntax-case stx ()
         [(_ elt)
          (if (identifier? #'elt)
              (if (member (syntax->datum #'elt) '(values ...))
                  #''elt
                  (raise-syntax-error 'name ""identifier not in universe"" stx #'elt))
              (raise-syntax-error 'name ""expected an identifier"" stx #'elt))]
         [(_ . _)
          (raise-syntax-error 'name ""bad syntax"" stx)])))".
Theorem C60_macro_text : read_text enum_pattern_source (strip (pobj enum_pat)) /\ read_text enum_template_source (strip (tobj enum_tmpl)).
Proof. split; (eexists; split; [exists 400; vm_compute; reflexivity|vm_compute; reflexivity]). Qed.

(** ** What a definition becomes

    (define-enumeration n (v ...) m), [t] the temporary: *)
Definition y (s : string) : obj := OSym (s2b s).
Definition quoted (o : obj) : obj := of_list [y "quote"; o].
Definition complaint (who : obj) (msg : string) (more : list obj) : obj :=
  of_list (y "raise-syntax-error" :: quoted who :: OStr (s2b msg) :: y "stx" :: more).
Definition con_clause (t : obj) : obj :=
  of_list [of_list [y "_"; y "elts"; y "..."];
           of_list [y "syntax"; of_list [of_list [y "enum-set-constructor"; t]; quoted (of_list [y "elts"; y "..."])]]].
Definition enum_text (n : obj) (vs : list obj) (m : obj) (t : obj) : obj :=
  let elt := of_list [y "syntax"; y "elt"] in
  let otherwise who := of_list [OPair (y "_") (y "_"); complaint who "bad syntax" []] in
  of_list [y "begin";
    of_list [y "define"; t; of_list [y "make-enumeration"; quoted (of_list vs)]];
    of_list [y "define-syntax"; of_list [m; y "stx"];
      of_list [y "syntax-case"; y "stx"; ONull;
        con_clause t; otherwise m]];
    of_list [y "define-syntax"; of_list [n; y "stx"];
      of_list [y "syntax-case"; y "stx"; ONull;
        of_list [of_list [y "_"; y "elt"];
                 of_list [y "if"; of_list [y "identifier?"; elt];
                   of_list [y "if"; of_list [y "member"; of_list [y "syntax->datum"; elt]; quoted (of_list vs)];
                     of_list [y "syntax"; quoted (y "elt")];
                     complaint n "identifier not in universe" [elt]];
                   complaint n "expected an identifier" [elt]]];
        otherwise n]]].

Definition enum_args : args := AList [pv "name"; seqp (pv "values"); pv "constructor"] None.
Lemma enum_wf : wf [] (headed PWild enum_args).
Proof. cbn. repeat (constructor; try discriminate); cbn; auto; intuition discriminate. Qed.
Lemma enum_tame : tame_args enum_args.
Proof. cbn. repeat (constructor; try discriminate). Qed.
Lemma enum_tok : tok enum_tmpl.
Proof.
  unfold enum_tmpl, bad_t, values_t, any_p, elt_t, quote_t, syntax_t, str_t, null_t, tl_, ti. unfold tl_, ti. tokens.
  all: constructor; [discriminate|tokens|]; intros u U; injection U as <-; repeat split; tokens.
Qed.
Lemma insts_tail rho es u : insts rho (TList es (Some u)) =
  match oconcat (map (insts rho) es), insts rho u with Some ds, Some [d] => Some [chain ds d] | _, _ => None end.
Proof. cbn [insts]. destruct (oconcat _); auto. Qed.
Definition enum_env (n vals m t : obj) : env :=
  over (env_of (PList with_pats None) [of_list [to_stx (y "elts"); to_stx dots]; t]) (env_of enum_pat [n; vals; m]).
Lemma enum_inst n vs m t : inst (enum_env n (of_list vs) m t) enum_tmpl = Some (enum_text (strip n) (map strip vs) (strip m) (strip t)).
Proof.
  unfold enum_tmpl. unfold bad_t, values_t, any_p, elt_t, quote_t, syntax_t, str_t, null_t, tl_, ti. unfold tl_, ti. set (rho := enum_env _ _ _ _).
  assert (V1 : rho (s2b "values") = Some (1, of_list vs)) by reflexivity.
  assert (V2 : rho (s2b "elts") = Some (1, of_list [to_stx (y "elts"); to_stx dots])) by reflexivity.
  unfold inst. repeat (first [inst_step|rewrite insts_tail]; cbn [map oconcat app]). rewrite ?app_nil_r. reflexivity.
Qed.
Lemma enum_pm k n vs m : pm enum_pat (to_stx (of_list [k; n; of_list vs; m])) [to_stx n; of_list (map to_stx vs); to_stx m].
Proof.
  eapply (m_list _ _ (map to_stx [k; n; of_list vs; m])); [apply slist_stx|]. cbn [map].
  change [to_stx n; of_list (map to_stx vs); to_stx m] with ([] ++ [to_stx n] ++ [of_list (map to_stx vs)] ++ [to_stx m] ++ []).
  repeat (apply m_cons; [first [apply PmWild|apply PmVar|apply m_seq, slist_stx]|]). constructor.
Qed.
Lemma enum_pm_inv d bs : pure d -> pm enum_pat (to_stx d) bs -> exists k n vs m,
  d = of_list [strip k; strip n; of_list (map strip vs); strip m] /\ bs = [n; of_list vs; m].
Proof.
  intros P H. unfold enum_pat, seqp, pv in H. inv_pats. apply (slist_datum _ _ P) in H. cbn [map] in H.
  cbn [app] in *. match goal with H1 : slist ?a ?b |- _ => pose proof (slist_strip _ _ H1) as E end.
  match goal with H : d = of_list [strip ?k; strip ?n; strip ?v; strip ?m], E : strip ?v = of_list (map strip ?vs) |- _ => exists k, n, vs, m; rewrite H, E; auto end.
Qed.

Lemma with_binds s f : 40 <= f -> with_syntax f (map pobj with_pats) (with_vals (OSyntax (OSym s) OFalse)) =
  MOk [of_list [to_stx (y "elts"); to_stx dots]; OSyntax (OSym s) OFalse].
Proof. intros Hf. do 40 (destruct f as [|f]; [lia|]). reflexivity. Qed.
(** One use of the macro: an expansion for the four-part form with identifiers, and an
    error for every other form. *)
Theorem C60_define_enumeration : exists N, forall f, N <= f -> forall c k n vs m, pure k ->
  exists v, define_enum f c (of_list [k; OSym n; of_list (map OSym vs); OSym m]) = MOk (v, (c + 1)%N) /\
    strip v = enum_text (OSym n) (map OSym vs) (OSym m) (strip (fst (gen_temp n c))).
Proof.
  destruct (rule_match [] enum_args enum_wf enum_tame) as [N1 M]. destruct (bind_vars_env [] enum_pat enum_wf) as [N2 B2].
  assert (WW : wf [] (PList with_pats None)) by (cbn; repeat (constructor; try discriminate); cbn; auto; intuition discriminate).
  destruct (bind_vars_env [] _ WW) as [N3 B3].
  exists (N1 + N2 + N3 + 40 + tsize enum_tmpl). intros f Hf c k n vs m PK. set (form := of_list _).
  assert (PF : plain form = true).
  { apply datum_plain. unfold pure, form. cbn [of_list strip]. rewrite PK. f_equal. f_equal. f_equal. rewrite strip_of_list. f_equal.
    rewrite map_map. apply map_ext. reflexivity. }
  assert (PP : pairp (to_stx form)) by (unfold form; cbn [of_list]; rewrite to_stx_pair; eexists; eexists; reflexivity).
  pose proof (enum_pm k (OSym n) (map OSym vs) (OSym m)) as PM. fold form in PM.
  destruct (M _ (to_stx_flat _ PF) PP f ltac:(lia)) as [[bs [E P]]|[_ C]]; [|exfalso; apply C; eauto].
  change (headed PWild enum_args) with enum_pat in *. rewrite (C58_unique _ _ _ _ P PM) in E.
  unfold define_enum, syntax_case. cbn [map select]. rewrite E. cbn [to_stx stx_name]. rewrite to_list_of_list.
  assert (ID : forallb identifierp (map to_stx (map OSym vs)) = true) by (rewrite forallb_forall; intros o O; rewrite map_map in O; apply in_map_iff in O as [q [<- _]]; reflexivity).
  rewrite ID. cbn [identifierp symbolp andb]. unfold gen_temp. set (t := OSyntax _ _).
  assert (WS : with_syntax f (map pobj with_pats) (with_vals t) = MOk [of_list [to_stx (y "elts"); to_stx dots]; t]) by (apply with_binds; lia).
  rewrite WS. change (pobj (PList [PWild; pv "name"; seqp (pv "values"); pv "constructor"] None)) with (pobj enum_pat). rewrite B2, B3 by lia.
  change (over _ _) with (enum_env (to_stx (OSym n)) (of_list (map to_stx (map OSym vs))) (to_stx (OSym m)) t).
  pose proof (template_spec (enum_env (to_stx (OSym n)) (of_list (map to_stx (map OSym vs))) (to_stx (OSym m)) t) enum_tmpl f enum_tok ltac:(lia)) as [TS _].
  rewrite enum_inst in TS. destruct (template _ f (tobj enum_tmpl)) as [v| | |] eqn:ET; try discriminate TS; try contradiction.
  - injection TS as TS. exists v. split; [reflexivity|]. rewrite <- TS. unfold t. cbn [fst strip to_stx]. f_equal. rewrite !map_map. apply map_ext. reflexivity.
  - exfalso. apply TS. split; [cbn; repeat split; auto|].
    unfold enum_tmpl, bad_t, values_t, any_p, elt_t, quote_t, syntax_t, str_t, null_t, tl_, ti. unfold tl_, ti. drives.
Qed.
Definition symbol (o : obj) : Prop := (exists s, o = OSym s) \/ exists s i, o = OGensym s i.
Lemma identifier_symbol o : identifierp o = true -> symbol (strip o).
Proof. destruct o; try discriminate. match goal with |- identifierp (OSyntax ?e _) = _ -> _ => destruct e; try discriminate end; intros _; [left|right]; cbn; eauto. Qed.
Lemma select_no_fuel : forall ps, Forall (wf []) ps -> exists N, forall e, flat e -> forall f i, N <= f ->
  select [] f e (map (fun p => (pobj p, fun _ : list obj => Some true)) ps) i <> MFuel /\
  forall j bs, select [] f e (map (fun p => (pobj p, fun _ : list obj => Some true)) ps) i = MOk (j, bs) -> i <= j.
Proof.
  induction ps as [|p ps IH]; intros W; [exists 0; intros e F f i Hf; split; discriminate|]. inversion W as [|? ? W1 W2]; subst. destruct (IH W2) as [N1 H].
  destruct (C58_match_partial [] p W1) as [N2 M]. exists (N1 + N2). intros e F f i Hf. cbn [map select]. specialize (M e F f ltac:(lia)).
  destruct (H e F f (S i) ltac:(lia)) as [H1 H2].
  destruct M as [[bs [E _]]|[[E _]|E]]; rewrite E.
  - split; [discriminate|]. intros j b J. injection J as <- <-. lia.
  - split; [exact H1|]. intros j b J. apply H2 in J. lia.
  - split; discriminate.
Qed.
Theorem C60_define_enumeration_refuses : exists N, forall f, N <= f -> forall c k a, pure (OPair k a) ->
  (forall n vs m, a = of_list [n; of_list vs; m] -> symbol n -> symbol m -> Forall symbol vs -> False) ->
  define_enum f c (OPair k a) = MErr.
Proof.
  destruct (rule_match [] enum_args enum_wf enum_tame) as [N1 M].
  assert (WB : Forall (wf []) enum_bad).
  { unfold enum_bad, pv. repeat first [apply Forall_nil|apply Forall_cons|apply WfWild|apply WfVar; [reflexivity|intros []]|apply WfEll; [| | |discriminate]|apply WfList; [|try discriminate]].
    intros u U. injection U as <-. split; [apply WfWild|split; [exact Logic.I|discriminate]]. }
  destruct (select_no_fuel enum_bad WB) as [N2 SB].
  exists (N1 + N2). intros f Hf c k a P NO.
  assert (PP : pairp (to_stx (OPair k a))) by (rewrite to_stx_pair; eexists; eexists; reflexivity).
  pose proof (to_stx_flat _ (datum_plain _ P)) as FL. unfold define_enum, syntax_case. cbn [map select]. fold enum_pat.
  destruct (M _ FL PP f ltac:(lia)) as [[bs [E PM]]|[E _]]; change (headed PWild enum_args) with enum_pat in *; rewrite E.
  - destruct (enum_pm_inv _ _ P PM) as (k' & n & vs & m & D & ->). cbn [of_list] in D. injection D as -> D.
    rewrite to_list_of_list. destruct (stx_name n) as [q|] eqn:SN; [|reflexivity].
    destruct (forallb identifierp vs && identifierp m) eqn:ID; [|reflexivity]. exfalso. apply andb_true_iff in ID as [ID1 ID2].
    eapply NO; [exact D| | |].
    + destruct n; try discriminate SN. match type of SN with stx_name (OSyntax ?e _) = _ => destruct e; try discriminate SN end; cbn; [left|right]; eauto.
    + apply identifier_symbol; auto.
    + rewrite Forall_map. rewrite forallb_forall in ID1. apply Forall_forall. intros o O. apply identifier_symbol; auto.
  - destruct (SB _ FL f 1 ltac:(lia)) as [S1 S2]. cbn [map enum_bad] in S1, S2. destruct (select _ _ _ _ 1) as [[j bs]| | |]; auto; [|contradiction].
    destruct j; [exfalso; specialize (S2 _ _ eq_refl); lia|reflexivity].
Qed.

(** ** The constructor
    A use (m x ...) becomes ((enum-set-constructor t) '(x ...)); for any other use the
    clause does not match, and the next one raises an error. *)
Definition con_tr (t : obj) (d : obj) : option obj :=
  match to_list d with
  | Some (_ :: xs) => Some (of_list [of_list [y "enum-set-constructor"; t]; quoted (of_list xs)])
  | _ => None
  end.
Lemma last_digit n c b : (n ++ print_long (Z.of_N (c + 1)))%list = b -> In (last b "a"%char) (s2b "0123456789").
Proof.
  intros <-. pose proof (print_pos_digits (c + 1)) as D.
  assert (NE : print_long (Z.of_N (c + 1)) <> []) by (unfold print_long; destruct (Z.ltb_spec (Z.of_N (c + 1)) 0); [discriminate|apply print_nat_spec]).
  destruct (print_long (Z.of_N (c + 1))) as [|x q _] using rev_ind; [congruence|]. rewrite app_assoc, last_last. apply digit_in.
  apply Forall_app in D as [_ D]. inversion D. auto.
Qed.
Definition con_pat : pat := PEll [PWild] (pv "elts") [] None.
Lemma con_env t v : t <> s2b "elts" -> env_of con_pat [v] t = None.
Proof.
  intros T. unfold env_of, con_pat, pv. cbn [vars flat_map app map combine find fst].
  destruct (list_eq_dec ascii_dec (s2b "elts") t) as [E|_]; [congruence|reflexivity].
Qed.
Lemma con_ok t : t <> s2b "..." -> t <> s2b "elts" -> Forall (rule_ok []) (con_rules t).
Proof.
  intros T1 T2. unfold con_rules. constructor; [|constructor]. unfold rule_ok. split; [|split; [|split; [|split; [|split; [|split]]]]].
  all: try (cbn; repeat (constructor; try discriminate); cbn; auto; intuition discriminate).
  - change (depths _) with (env_of con_pat [ONull]). cbn [body]. unfold tl_, ti, quote_t. unfold tl_, ti. cbn [enough fold_right].
    rewrite (con_env t) by auto. cbn. repeat split; auto.
  - change (depths _) with (env_of con_pat [ONull]). cbn [body]. unfold tl_, ti, quote_t. unfold tl_, ti. drives.
Qed.
Lemma con_agrees t : t <> s2b "..." -> t <> s2b "elts" -> agrees [] (con_rules t) (con_tr (OSym t)).
Proof.
  intros T1 T2. apply use_agrees; [apply con_ok; auto| |].
  - intros k a i r bs P F. apply first_head in F as [-> M]. unfold matches, rule_pat in M. cbn [rargs headed] in M. unfold pv in M. inv_pats. from_datum.
    cbn [app] in *. rewrite H. unfold con_tr. cbn [map]. rewrite to_list_of_list. eexists. split; [reflexivity|].
    cbn [body]. set (rho := env_of _ _). match goal with |- context [quoted (of_list (map strip ?l))] => assert (V : rho (s2b "elts") = Some (1, of_list l)) by reflexivity end.
    assert (R : rho t = None) by (apply con_env; auto).
    assert (R1 : rho (s2b "enum-set-constructor") = None) by reflexivity. assert (R2 : rho (s2b "quote") = None) by reflexivity. clearbody rho.
    unfold tl_, ti, quote_t. unfold tl_, ti. insting. rewrite ?app_nil_r. reflexivity.
  - intros k a x H. unfold con_tr in H. destruct (to_list (OPair k a)) as [[|q xs]|] eqn:E; try discriminate. apply to_list_is in E.
    exists (R_ (con_rules t) 0), [of_list (map to_stx xs)]. split; [left; reflexivity|]. unfold matches, rule_pat. rewrite E. cbn [R_ con_rules nth rargs headed].
    apply (m_rest [PWild] _ _ [to_stx q] (map to_stx xs) []); [apply (slist_stx (q :: xs))|]. apply (m_cons PWild [] (to_stx q) [] [] []); constructor.
Qed.
Theorem C60_constructor_macro n c : let t := strip (fst (gen_temp n c)) in
  exists m N, sc_parse (of_list [y "lambda"; of_list [y "stx"]; of_list [y "syntax-case"; y "stx"; ONull; con_clause t]]) = Some m /\
  forall f, N <= f -> forall k a, strip (OPair k a) = OPair k a ->
  match con_tr t (OPair k a) with
  | Some x => exists v, expand_use f m (OPair k a) = MOk v /\ strip v = x
  | None => expand_use f m (OPair k a) = MNo
  end.
Proof.
  unfold gen_temp. cbn [fst strip]. set (t := (n ++ _)%list). cbn zeta.
  assert (T1 : t <> s2b "...") by (intros E; apply last_digit in E; vm_compute in E; intuition discriminate).
  assert (T2 : t <> s2b "elts") by (intros E; apply last_digit in E; vm_compute in E; intuition discriminate).
  destruct (con_agrees t T1 T2) as [N A]. exists (macro_of [] (con_rules t)), N. split; [reflexivity|exact A].
Qed.

(** ** The name
    A use (n x): 'x for a symbol x of the enumeration, an error for everything else. *)
Theorem C60_name_macro : exists N, forall f, N <= f -> forall vs k a, strip (OPair k a) = OPair k a ->
  (forall x, a = of_list [x] -> symbol x -> In x vs -> exists v, name_use f vs (OPair k a) = MOk v /\ strip v = quoted x) /\
  ((forall x, a = of_list [x] -> symbol x -> In x vs -> False) -> name_use f vs (OPair k a) = MErr).
Proof.
  assert (W : wf [] (headed PWild (AList [pv "elt"] None))) by (cbn; repeat (constructor; try discriminate); cbn; auto; intuition discriminate).
  assert (T : tame_args (AList [pv "elt"] None)) by (cbn; repeat (constructor; try discriminate)).
  assert (WB : Forall (wf []) [PList [PWild] (Some PWild)]).
  { constructor; [|constructor]. constructor; [repeat constructor|]. intros u U. injection U as <-. split; [apply WfWild|split; [exact Logic.I|discriminate]]. }
  destruct (rule_match [] _ W T) as [N1 M]. destruct (bind_vars_env [] elt_pat W) as [N2 B]. destruct (select_no_fuel _ WB) as [N3 SB].
  exists (N1 + N2 + N3 + 20). intros f Hf vs k a P. change (pure (OPair k a)) in P.
  assert (PP : pairp (to_stx (OPair k a))) by (rewrite to_stx_pair; eexists; eexists; reflexivity).
  pose proof (to_stx_flat _ (datum_plain _ P)) as FL. specialize (M _ FL PP f ltac:(lia)). change (headed PWild _) with elt_pat in M.
  split.
  - intros x -> SX I.
    assert (PM : pm elt_pat (to_stx (of_list [k; x])) [to_stx x]).
    { apply (m_list _ _ _ _ (slist_stx [k; x])). cbn [map]. apply (m_cons PWild _ _ _ []); [constructor|]. apply (m_cons _ [] _ [] [_] []); constructor. }
    destruct M as [[bs [E PE]]|[_ C]]; [|exfalso; apply C; eauto].
    rewrite (C58_unique _ _ _ _ PE PM) in E. unfold name_use, syntax_case. cbn [map select]. rewrite E.
    assert (EX : existsb (obj_sym_dec x) vs = true).
    { apply existsb_exists. exists x. split; auto. destruct SX as [[s ->]|[s [i ->]]]; cbn; destruct (name_dec s s); try congruence. apply N.eqb_refl. }
    assert (ID : identifierp (to_stx x) = true) by (destruct SX as [[s ->]|[s [i ->]]]; reflexivity).
    assert (SS : strip (to_stx x) = x) by (destruct SX as [[s ->]|[s [i ->]]]; reflexivity).
    rewrite ID, SS, EX. cbn [andb]. rewrite B by lia.
    destruct SX as [[s ->]|[s [i ->]]]; clear - Hf; (do 20 (destruct f as [|f]; [lia|])); eexists; split; reflexivity.
  - intros NO. unfold name_use, syntax_case. cbn [map select]. destruct M as [[bs [E PE]]|[E _]]; rewrite E.
    + unfold elt_pat, pv in PE. inv_pats. from_datum. cbn [app] in *.
      match goal with H : OPair k a = of_list [strip ?q; strip ?x] |- _ => cbn [of_list] in H; injection H as _ H; destruct (identifierp x) eqn:ID; [|reflexivity];
        destruct (existsb (obj_sym_dec (strip x)) vs) eqn:EX; [|reflexivity]; exfalso; apply (NO (strip x) H (identifier_symbol _ ID)) end.
      apply existsb_exists in EX as [z [Z1 Z2]]. match goal with |- In ?u _ => assert (u = z); [|congruence] end. revert Z2. clear.
      match goal with |- obj_sym_dec ?u z = true -> _ => generalize u end. intros u. destruct u; try discriminate; destruct z; try discriminate; cbn.
      * destruct (name_dec _ _); congruence.
      * destruct (name_dec _ _); [|discriminate]. intros Q. apply N.eqb_eq in Q. congruence.
    + destruct (SB _ FL f 1 ltac:(lia)) as [S1 S2]. cbn [map select] in S1, S2.
      match goal with |- match ?q with _ => _ end = _ => destruct q as [[j bs]| | |] eqn:Q; auto; [|contradiction] end.
      destruct j; [exfalso; specialize (S2 _ _ eq_refl); lia|reflexivity].
Qed.

(** ** Finding
    The temporary that holds the enumeration is not always fresh (C71): when the first
    temporary of a module is that of an enumeration named a1 and the eleventh that of one
    named a, both expansions define a11. *)
Theorem C60_two_enumerations_refuted : exists n m c d, n <> m /\ c <> d /\ forall vs ws p q,
  exists t r r', enum_text (OSym n) vs p (strip (fst (gen_temp n c))) = of_list (y "begin" :: of_list [y "define"; t; of_list [y "make-enumeration"; quoted (of_list vs)]] :: r) /\
    enum_text (OSym m) ws q (strip (fst (gen_temp m d))) = of_list (y "begin" :: of_list [y "define"; t; of_list [y "make-enumeration"; quoted (of_list ws)]] :: r').
Proof.
  exists (s2b "a1"), (s2b "a"), 0%N, 10%N. split; [discriminate|]. split; [discriminate|]. intros vs ws p q.
  exists (OSym (s2b "a11")). do 2 eexists. split; reflexivity.
Qed.

(** (define-enumeration color (red green) colors), (color red), (colors green red) *)
Ltac reads_ := eexists; split; [exists 200; vm_compute; reflexivity|vm_compute; reflexivity].
Example C60_macro_met : exists d u w x,
  read_text "(define-enumeration color (red green) colors)" d /\ d = of_list [y "define-enumeration"; OSym (s2b "color"); of_list (map OSym [s2b "red"; s2b "green"]); OSym (s2b "colors")] /\
  read_text "(colors green red)" u /\ strip u = u /\
  read_text "((enum-set-constructor color1) '(green red))" x /\ con_tr (strip (fst (gen_temp (s2b "color") 0))) u = Some x /\
  read_text "(color red)" w /\ w = OPair (y "color") (of_list [y "red"]).
Proof.
  do 4 eexists. split; [reads_|]. split; [reflexivity|]. split; [reads_|]. split; [reflexivity|]. split; [reads_|]. split; [reflexivity|]. split; [reads_|reflexivity].
Qed.
Print Assumptions C60_macro_text.
Print Assumptions C60_define_enumeration.
Print Assumptions C60_define_enumeration_refuses.
Print Assumptions C60_constructor_macro.
Print Assumptions C60_name_macro.
Print Assumptions C60_two_enumerations_refuted.
