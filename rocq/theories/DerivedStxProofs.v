(** Lemmas on the macros of do.min and case.min. *)
From Coq Require Import ZArith NArith Bool Ascii String List Arith Lia.
From Verif Require Import Base Heap Ast Check Expand LibRead LibReadProofs StxCase StxCaseProofs StxCaseThm Template TemplateProofs TemplateThm SynRules SynRulesProofs SynRulesThm MacroProofs Derived DerivedStx.
Import ListNotations.
Local Open Scope list_scope.
Local Open Scope nat_scope.

(** * Data without syntax objects *)
Definition pure (d : obj) : Prop := strip d = d.
Lemma of_list_inj : forall l m, of_list l = of_list m -> l = m.
Proof. intros l m H. apply (f_equal to_list) in H. rewrite !to_list_of_list in H. congruence. Qed.
Lemma to_list_is : forall o l, to_list o = Some l -> o = of_list l.
Proof.
  induction o; intros m H; cbn in H; try discriminate; [injection H as <-; reflexivity|].
  destruct (to_list o2) eqn:E; [|discriminate]. injection H as <-. cbn. f_equal. auto.
Qed.
Lemma pure_list : forall l, pure (of_list l) -> Forall pure l.
Proof.
  intros l H. unfold pure in H. rewrite strip_of_list in H. apply of_list_inj in H.
  induction l as [|x l IH]; constructor; cbn in H; injection H as H1 H2; auto.
Qed.
Lemma pure_map : forall l, Forall pure l -> map strip l = l.
Proof. induction 1; cbn; congruence. Qed.
Lemma map_stx : forall l, Forall pure l -> map strip (map to_stx l) = l.
Proof. intros l H. rewrite map_map. rewrite (map_ext _ strip) by (intros; apply strip_to_stx). apply pure_map; auto. Qed.
Lemma pure_stx : forall x, pure x -> strip (to_stx x) = x.
Proof. intros x H. rewrite (proj1 (strip_to_stx x)). auto. Qed.

Lemma drive_b : forall (get : env) d xs, existsb (fun x => match get x with Some (p, _) => d <? p | None => false end) xs = true ->
  exists x p v, In x xs /\ get x = Some (p, v) /\ d < p.
Proof.
  intros get d xs H. apply existsb_exists in H as [x [HI H]]. exists x. destruct (get x) as [[p v]|]; [|discriminate].
  exists p, v. apply Nat.ltb_lt in H. auto.
Qed.
Ltac drives := cbn [driven fold_right]; repeat match goal with
  | |- _ /\ _ => split
  | |- True => exact Logic.I
  | |- exists x, _ => apply drive_b; reflexivity
  end.
Ltac ok_rule := unfold rule_ok; split; [|split; [|split; [|split; [|split; [|split]]]]];
  [ cbn; repeat (constructor; try discriminate); cbn; auto; intuition discriminate
  | cbn; repeat (constructor; try discriminate)
  | cbn; repeat constructor; cbn; intuition discriminate
  | cbv [tl_ ti null_t clause_t equal_t test_t]; cbn [body]; tokens
  | cbv [tl_ ti null_t clause_t equal_t test_t]; cbn [body]; normals
  | cbn; repeat split; auto
  | cbv [tl_ ti null_t clause_t equal_t test_t]; cbn [body]; drives ].
Lemma do_ok : Forall (rule_ok []) do_rules.
Proof. unfold do_rules. constructor; [|constructor]. ok_rule. Qed.
Lemma case_ok : Forall (rule_ok [s2b "else"]) case_rules.
Proof. unfold case_rules. repeat (constructor; [ok_rule|]). constructor. Qed.
Lemma case_else_ok : Forall (rule_ok [s2b "else"]) case_else_rules.
Proof. unfold case_else_rules. repeat (constructor; [ok_rule|]). constructor. Qed.
Lemma case_test_ok : Forall (rule_ok []) case_test_rules.
Proof. unfold case_test_rules. repeat (constructor; [ok_rule|]). constructor. Qed.

Ltac inv_pats := repeat match goal with
  | H : pml [] _ _ |- _ => apply i_nil in H as [-> ->]
  | H : pml (_ :: _) _ _ |- _ => apply i_cons in H as (? & ? & ? & ? & -> & -> & ? & ?)
  | H : pm (PVar _) _ _ |- _ => apply i_var in H as ->
  | H : pm PWild _ _ |- _ => apply i_wild in H as ->
  | H : pm (PLit _) _ _ |- _ => apply i_lit in H as [-> [? ->]]
  | H : pm (PList _ None) _ _ |- _ => apply i_list in H as (? & ? & ?)
  | H : pm (PEll _ (PVar _) [] None) _ _ |- _ => apply i_rest in H as (? & ? & ? & ? & ? & ->)
  end.
Lemma slist_datum : forall d es, pure d -> slist (to_stx d) es -> d = of_list (map strip es).
Proof. intros d es P H. rewrite <- (slist_strip _ _ H), (proj1 (strip_to_stx d)). auto. Qed.

(** * do *)
Notation triple := (obj * obj * obj)%type.
Lemma spec_rows : forall es rows, pmr (PList [pv "var"; pv "init"; pv "step"] None) es rows -> exists l : list triple,
  rows = map (fun b => [fst (fst b); snd (fst b); snd b]) l /\
  map strip es = map (fun b => of_list [strip (fst (fst b)); strip (snd (fst b)); strip (snd b)]) l.
Proof.
  intros es rows H. apply i_rows in H. induction H as [|e r es rows H HS IH]; [exists []; auto|].
  destruct IH as [l [-> E]]. unfold pv in H. inv_pats. cbn [app] in *.
  match goal with H : slist _ [?x; ?y; ?z] |- _ => rename x into a, y into b, z into c, H into SL end.
  exists ((a, b, c) :: l). split; auto. cbn [map fst snd]. rewrite E. f_equal. rewrite (slist_strip _ _ SL). reflexivity.
Qed.
Lemma do_inv : forall r d bs, In r do_rules -> pure d -> matches r d bs -> exists k (l : list triple) t es cs,
  d = of_list (strip k :: of_list (map (fun b => of_list [strip (fst (fst b)); strip (snd (fst b)); strip (snd b)]) l) ::
               of_list (strip t :: map strip es) :: map strip cs) /\
  bs = [of_list (map (fun b => fst (fst b)) l); of_list (map (fun b => snd (fst b)) l); of_list (map snd l); t; of_list es; of_list cs].
Proof.
  intros r d bs HI PD M. unfold do_rules in HI. destruct HI as [<-|[]]. unfold matches, rule_pat in M. cbn [rargs headed] in M.
  unfold pv, seqp in M. inv_pats.
  match goal with H : pm (PEll [] (PList _ _) [] None) _ _ |- _ => apply i_ell in H as (es1 & mids & es2 & b1 & rows & b2 & SL & H1 & H2 & H3 & ->) end.
  inv_pats. cbn [app] in *. rewrite !app_nil_r in *. destruct (spec_rows _ _ H2) as [l [-> EL]].
  match goal with H : slist (to_stx d) (?a :: _ :: ?c :: ?cs), H' : slist ?c (?t :: ?es) |- _ =>
    exists a, l, t, es, cs; rewrite (slist_datum _ _ PD H); cbn [map]; rewrite (slist_strip _ _ SL), (slist_strip _ _ H'), EL end.
  split; auto. unfold columns. cbn [vars flat_map length seq map app Nat.add]. rewrite !map_map. reflexivity.
Qed.
Lemma specs_of : forall l : list triple, do_specs (of_list (map (fun b => of_list [fst (fst b); snd (fst b); snd b]) l)) = Some l.
Proof. induction l as [|[[a b] c] l IH]; auto. cbn [of_list] in IH. cbn [map of_list do_specs to_list fst snd]. rewrite IH. reflexivity. Qed.
Definition strips (l : list triple) : list triple := map (fun b => (strip (fst (fst b)), strip (snd (fst b)), strip (snd b))) l.
Lemma do_tr_of : forall k (l : list triple) t es cs,
  do_tr (of_list (k :: of_list (map (fun b => of_list [fst (fst b); snd (fst b); snd b]) l) :: of_list (t :: es) :: cs)) =
  Some (of_list [Expand.sym "let"; Expand.sym "loop"; of_list (map (fun b => of_list [fst (fst b); snd (fst b)]) l);
     of_list [Expand.sym "if"; t; OPair (Expand.sym "begin") (of_list es);
              OPair (Expand.sym "begin") (of_list (cs ++ [OPair (Expand.sym "loop") (of_list (map snd l))]))]]).
Proof. intros. unfold do_tr. rewrite to_list_of_list, specs_of. cbn [of_list to_list]. rewrite to_list_of_list. reflexivity. Qed.

Ltac inst_step := first
  [ rewrite insts_list | rewrite insts_const | erewrite insts_var by (first [eassumption|reflexivity])
  | rewrite insts_free by (first [assumption|reflexivity]) | erewrite insts_seq by (first [eassumption|reflexivity]) ].
Ltac insting := unfold inst; repeat (inst_step; cbn [map oconcat app]).
Lemma do_inst : forall (l : list triple) t es cs, inst (env_of (rule_pat (nth 0 do_rules (Rule [] (AList [] None) (TConst ONull))))
    [of_list (map (fun b => fst (fst b)) l); of_list (map (fun b => snd (fst b)) l); of_list (map snd l); t; of_list es; of_list cs])
    (body (nth 0 do_rules (Rule [] (AList [] None) (TConst ONull)))) =
  Some (of_list [Expand.sym "let"; Expand.sym "loop"; of_list (map (fun b => of_list [fst (fst b); snd (fst b)]) (strips l));
     of_list [Expand.sym "if"; strip t; OPair (Expand.sym "begin") (of_list (map strip es));
              OPair (Expand.sym "begin") (of_list (map strip cs ++ [OPair (Expand.sym "loop") (of_list (map snd (strips l)))]))]]).
Proof.
  intros l t es cs. cbn [do_rules nth body]. unfold tl_, ti. set (rho := env_of _ _).
  assert (E1 : rho (s2b "var") = Some (1, of_list (map (fun b => fst (fst b)) l))) by reflexivity.
  assert (E2 : rho (s2b "init") = Some (1, of_list (map (fun b => snd (fst b)) l))) by reflexivity.
  assert (E3 : rho (s2b "step") = Some (1, of_list (map snd l))) by reflexivity.
  assert (E4 : rho (s2b "test") = Some (0, t)) by reflexivity.
  assert (E5 : rho (s2b "expr") = Some (1, of_list es)) by reflexivity.
  assert (E6 : rho (s2b "command") = Some (1, of_list cs)) by reflexivity.
  assert (F : forall x, In x [s2b "let"; s2b "loop"; s2b "if"; s2b "begin"] -> rho x = None) by (intros x HI; repeat (destruct HI as [<-|HI]; [reflexivity|]); destruct HI).
  clearbody rho.
  assert (R : insts rho (TRep (TList [TId (s2b "var"); TId (s2b "init")] None)) =
              Some (map (fun b => of_list [fst (fst b); snd (fst b)]) (strips l))).
  { unfold strips. rewrite map_map. cbn [fst snd].
    apply (insts_rep _ (ONull, ONull, ONull)).
    - split; cbn [ids flat_map app]; repeat constructor; try rewrite E1; try rewrite E2; eauto; eexists; split; try reflexivity; apply map_length.
    - intros i L.
      assert (A1 : at_ i rho (s2b "var") = Some (0, fst (fst (nth i l (ONull, ONull, ONull))))).
      { rewrite (at_list i rho _ 0 _ (fst (fst (ONull, ONull, ONull))) E1) by (rewrite map_length; auto).
        rewrite (map_nth (fun b : triple => fst (fst b))). reflexivity. }
      assert (A2 : at_ i rho (s2b "init") = Some (0, snd (fst (nth i l (ONull, ONull, ONull))))).
      { rewrite (at_list i rho _ 0 _ (snd (fst (ONull, ONull, ONull))) E2) by (rewrite map_length; auto).
        rewrite (map_nth (fun b : triple => snd (fst b))). reflexivity. }
      insting. reflexivity. }
  unfold inst. rewrite insts_list. cbn [map].
  rewrite (insts_free rho (s2b "let")), (insts_free rho (s2b "loop")) by (apply F; cbn; auto).
  rewrite (insts_list rho [TRep (TList _ _)]). cbn [map]. rewrite R.
  assert (F1 := F (s2b "if") ltac:(cbn; auto)). assert (F2 := F (s2b "begin") ltac:(cbn; auto)). assert (F3 := F (s2b "loop") ltac:(cbn; auto)).
  insting. cbn [map oconcat app of_list]. rewrite !app_nil_r. unfold strips. rewrite !map_map. reflexivity.
Qed.

(** * Agreement of a macro with a function on data *)
Definition agrees (lits : list (list byte)) (rs : list rule) (t : tr) : Prop :=
  exists N, forall f, N <= f -> forall k a, pure (OPair k a) ->
  match t (OPair k a) with
  | Some x => exists v, expand_use f (macro_of lits rs) (OPair k a) = MOk v /\ strip v = x
  | None => expand_use f (macro_of lits rs) (OPair k a) = MNo
  end.
Lemma use_agrees : forall lits rs (t : tr), Forall (rule_ok lits) rs ->
  (forall k a i r bs, pure (OPair k a) -> first_rule rs (OPair k a) i r bs ->
     exists x, t (OPair k a) = Some x /\ inst (env_of (rule_pat r) bs) (body r) = Some x) ->
  (forall k a x, t (OPair k a) = Some x -> exists r bs, In r rs /\ matches r (OPair k a) bs) -> agrees lits rs t.
Proof.
  intros lits rs t OK H1 H2. destruct (C67_use_partial lits rs OK) as [N U]. exists N. intros f Hf k a P.
  destruct (U f Hf k a (datum_plain _ P)) as [[i [r [bs [v [FR [E I1]]]]]]|[[E NM]|[i [r [bs [FR [E I1]]]]]]].
  - destruct (H1 k a i r bs P FR) as [x [E1 E2]]. rewrite E1. exists v. split; auto. congruence.
  - destruct (t (OPair k a)) as [x|] eqn:E1; auto. destruct (H2 k a x E1) as [r [bs [HI M]]]. exfalso. eapply NM; eauto.
  - destruct (H1 k a i r bs P FR) as [x [E1 E2]]. congruence.
Qed.
Lemma first_head : forall r d i r' bs, first_rule [r] d i r' bs -> r' = r /\ matches r d bs.
Proof.
  intros r d i r' bs [F1 [F2 _]]. destruct i as [|[|i]]; cbn in F1; try discriminate; injection F1 as <-; auto.
Qed.

Lemma specs_is : forall o l, do_specs o = Some l -> o = of_list (map (fun b => of_list [fst (fst b); snd (fst b); snd b]) l).
Proof.
  induction o; intros m H; cbn [do_specs] in H; try discriminate; [injection H as <-; reflexivity|].
  destruct (to_list o1) as [[|v1 [|v2 [|v3 [|? ?]]]]|] eqn:E; try discriminate.
  destruct (do_specs o2) as [l2|]; [|discriminate]. injection H as <-. apply to_list_is in E. cbn [map of_list fst snd]. f_equal; auto.
Qed.
Lemma do_fwd : forall d x, do_tr d = Some x -> exists bs, matches (nth 0 do_rules (Rule [] (AList [] None) (TConst ONull))) d bs.
Proof.
  intros d x H. unfold do_tr in H. destruct (to_list d) as [[|k [|specs [|test cs]]]|] eqn:E; try discriminate.
  destruct (do_specs specs) as [l|] eqn:ES; [|discriminate]. destruct (to_list test) as [[|t es]|] eqn:ET; try discriminate.
  apply to_list_is in E, ET. apply specs_is in ES. subst.
  eexists. unfold matches, rule_pat. cbn [do_rules nth rargs headed].
  eapply (m_rest _ _ _ [to_stx k; _; _] (map to_stx cs)); [apply (slist_stx (k :: _ :: _ :: cs))|].
  eapply m_cons; [constructor|]. eapply m_cons; [|eapply m_cons; [|constructor]].
  - eapply (m_ell [] _ [] _ [] _ []); [rewrite app_nil_r; apply slist_stx|constructor| |constructor].
    rewrite map_map. apply (m_rows _ _ _ (fun b => [to_stx (fst (fst b))] ++ [to_stx (snd (fst b))] ++ [to_stx (snd b)] ++ [])).
    intros b _. eapply m_list; [apply slist_stx|]. cbn [map]. repeat apply m_cons; constructor.
  - eapply (m_rest _ _ _ [to_stx t] (map to_stx es)); [apply (slist_stx (t :: es))|]. eapply m_cons; constructor.
Qed.
Lemma do_agrees : agrees [] do_rules do_tr.
Proof.
  apply use_agrees; [apply do_ok| |].
  - intros k a i r bs P FR. destruct (first_head _ _ _ _ _ FR) as [-> M].
    destruct (do_inv _ _ _ (or_introl eq_refl) P M) as (k0 & l & t & es & cs & ED & ->). rewrite ED.
    eexists. split; [|apply do_inst]. rewrite <- (do_tr_of (strip k0)). f_equal. unfold strips. rewrite map_map. reflexivity.
  - intros k a x H. destruct (do_fwd _ _ H) as [bs M]. eexists. exists bs. split; [left; reflexivity|exact M].
Qed.

(** * case/test *)
Ltac fwd_list l := eapply m_list; [apply (slist_stx l)|].
Definition R_ (rs : list rule) (i : nat) : rule := nth i rs (Rule [] (AList [] None) (TConst ONull)).
Lemma test_fwd0 : forall k v, exists bs, matches (R_ case_test_rules 0) (of_list [k; v; ONull]) bs.
Proof.
  intros. eexists. unfold matches, rule_pat. cbn [R_ case_test_rules nth rargs headed]. fwd_list [k; v; ONull].
  eapply m_cons; [constructor|]. eapply m_cons; [constructor|]. eapply m_cons; [|constructor]. fwd_list (@nil obj). constructor.
Qed.
Lemma test_fwd1 : forall k v x, exists bs, matches (R_ case_test_rules 1) (of_list [k; v; of_list [x]]) bs.
Proof.
  intros. eexists. unfold matches, rule_pat. cbn [R_ case_test_rules nth rargs headed]. fwd_list [k; v; of_list [x]].
  eapply m_cons; [constructor|]. eapply m_cons; [constructor|]. eapply m_cons; [|constructor]. fwd_list [x]. eapply m_cons; constructor.
Qed.
Lemma test_fwd2 : forall k v x xs, exists bs, matches (R_ case_test_rules 2) (of_list [k; v; of_list (x :: xs)]) bs.
Proof.
  intros. eexists. unfold matches, rule_pat. cbn [R_ case_test_rules nth rargs headed]. fwd_list [k; v; of_list (x :: xs)].
  eapply m_cons; [constructor|]. eapply m_cons; [constructor|]. eapply m_cons; [|constructor].
  eapply (m_rest _ _ _ [to_stx x] (map to_stx xs)); [apply (slist_stx (x :: xs))|]. eapply m_cons; constructor.
Qed.
Ltac from_datum := match goal with P : pure _, H : slist (to_stx (OPair _ _)) _ |- _ => apply (slist_datum _ _ P) in H; cbn [map] in H end.
Ltac strip_parts := repeat match goal with H : slist ?x _ |- _ => apply slist_strip in H; cbn [map] in H; try rewrite H in * end.
Lemma case_test_agrees : agrees [] case_test_rules case_test_tr.
Proof.
  apply use_agrees; [apply case_test_ok| |].
  - intros k a i r bs P [F1 [F2 F3]]. unfold matches, rule_pat in F2. destruct i as [|[|[|i]]]; cbn in F1; try (destruct i; discriminate); injection F1 as <-;
      cbn [rargs headed] in F2; unfold pv in F2; inv_pats; from_datum; strip_parts; cbn [app map] in *.
    + eexists. rewrite H. split; reflexivity.
    + eexists. rewrite H. split; reflexivity.
    + match type of H with _ = of_list [_; strip ?v; of_list (strip ?x :: map strip ?xs)] => rename v into vv, x into kk, xs into ks end.
      destruct ks as [|k2 ks]; [exfalso; apply (F3 1 _ ltac:(lia) eq_refl); rewrite H; apply test_fwd1|].
      rewrite H. unfold case_test_tr. rewrite to_list_of_list. cbn [to_list of_list map]. rewrite to_list_of_list. eexists. split; [reflexivity|].
      unfold tl_, ti, equal_t. cbn [body]. set (rho := env_of _ _). 
      assert (E1 : rho (s2b "ks") = Some (1, of_list (k2 :: ks))) by reflexivity. insting. rewrite app_nil_r. reflexivity.
  - intros k a x H. unfold case_test_tr in H. destruct (to_list (OPair k a)) as [[|k0 [|v [|o [|? ?]]]]|] eqn:E; try discriminate.
    destruct (to_list o) as [l|] eqn:EO; [|discriminate]. apply to_list_is in E, EO. subst o. rewrite E.
    destruct l as [|x1 l].
    + destruct (test_fwd0 k0 v) as [bs M]. exists (R_ case_test_rules 0), bs. split; [left; reflexivity|exact M].
    + destruct (test_fwd2 k0 v x1 l) as [bs M]. exists (R_ case_test_rules 2), bs. split; [right; right; left; reflexivity|exact M].
Qed.

(** * case/else *)
Definition else_d (l : list obj) : obj := of_list (Expand.sym "else" :: l).
Definition sel_d (ks es : list obj) : obj := of_list (of_list ks :: es).
Lemma sel_fwd : forall ks es, exists bs, pm sel_p (to_stx (sel_d ks es)) bs.
Proof.
  intros. eexists. unfold sel_p, sel_d, pv. eapply (m_rest _ _ _ [to_stx (of_list ks)] (map to_stx es)); [apply (slist_stx (of_list ks :: es))|].
  eapply m_cons; [|constructor]. apply m_seq. apply slist_stx.
Qed.
Lemma else_fwd : forall l, exists bs, pm else_p (to_stx (else_d l)) bs.
Proof.
  intros. eexists. unfold else_p, else_d, pv, kw. eapply (m_rest _ _ _ [to_stx (Expand.sym "else")] (map to_stx l)); [apply (slist_stx (Expand.sym "else" :: l))|].
  eapply m_cons; [|constructor]. apply PmLit.
Qed.
Lemma celse_fwd0 : forall k v ks es xs, exists bs, matches (R_ case_else_rules 0) (of_list [k; v; sel_d ks es; else_d xs]) bs.
Proof.
  intros. destruct (sel_fwd ks es) as [b1 H1]. destruct (else_fwd xs) as [b2 H2]. eexists. unfold matches, rule_pat.
  cbn [R_ case_else_rules nth rargs headed]. fwd_list [k; v; sel_d ks es; else_d xs].
  eapply m_cons; [constructor|]. eapply m_cons; [constructor|]. eapply m_cons; [eassumption|]. eapply m_cons; [eassumption|constructor].
Qed.
Lemma celse_fwd1 : forall k v ks es rest xs, exists bs, matches (R_ case_else_rules 1) (of_list (k :: v :: sel_d ks es :: rest ++ [else_d xs])) bs.
Proof.
  intros. destruct (sel_fwd ks es) as [b1 H1]. destruct (else_fwd xs) as [b2 H2]. eexists. unfold matches, rule_pat.
  cbn [R_ case_else_rules nth rargs headed].
  eapply (m_ell _ _ _ _ [to_stx k; to_stx v; to_stx (sel_d ks es)] (map to_stx rest) [to_stx (else_d xs)]).
  - pose proof (slist_stx (k :: v :: sel_d ks es :: rest ++ [else_d xs])) as SL. cbn [map] in SL. rewrite map_app in SL. exact SL.
  - eapply m_cons; [constructor|]. eapply m_cons; [constructor|]. eapply m_cons; [eassumption|constructor].
  - apply (m_rows _ _ _ (fun e => [to_stx e])). intros; constructor.
  - eapply m_cons; [eassumption|constructor].
Qed.
Lemma celse_fwd2 : forall k v xs, exists bs, matches (R_ case_else_rules 2) (of_list [k; v; else_d xs]) bs.
Proof.
  intros. destruct (else_fwd xs) as [b2 H2]. eexists. unfold matches, rule_pat. cbn [R_ case_else_rules nth rargs headed].
  fwd_list [k; v; else_d xs]. eapply m_cons; [constructor|]. eapply m_cons; [constructor|]. eapply m_cons; [eassumption|constructor].
Qed.
Lemma kw_else : forall k, is_kw "else" k = true -> k = Expand.sym "else".
Proof. intros k H. unfold is_kw in H. destruct k; try discriminate. destruct (list_eq_dec _ _ _); [subst; reflexivity|discriminate]. Qed.
Lemma else_kw : is_kw "else" (Expand.sym "else") = true.
Proof. reflexivity. Qed.
Lemma list_not_kw : forall s l, is_kw s (of_list l) = false.
Proof. destruct l; reflexivity. Qed.
Lemma sel_inv : forall e b, pm sel_p e b -> exists ks es, strip e = sel_d (map strip ks) (map strip es) /\ b = [of_list ks; of_list es].
Proof.
  intros e b H. unfold sel_p, seqp, pv in H. inv_pats. cbn [app] in *.
  match goal with H1 : slist e (?x :: ?es), H2 : slist ?x ?ks |- _ => exists ks, es; rewrite (slist_strip _ _ H1); cbn [map]; rewrite (slist_strip _ _ H2) end.
  split; reflexivity.
Qed.
Lemma else_inv : forall e b, pm else_p e b -> exists xs, strip e = else_d (map strip xs) /\ b = [of_list xs].
Proof.
  intros e b H. unfold else_p, kw, pv in H. inv_pats. cbn [app] in *.
  match goal with H1 : slist e (_ :: ?es) |- _ => exists es; rewrite (slist_strip _ _ H1) end. split; reflexivity.
Qed.
Lemma celse_tr0 : forall k v ks es xs, case_else_tr (of_list [k; v; sel_d ks es; else_d xs]) =
  Some (of_list [Expand.sym "if"; of_list [Expand.sym "case/test"; v; of_list ks];
                 of_list (Expand.sym "let-values" :: ONull :: es); of_list (Expand.sym "let-values" :: ONull :: xs)]).
Proof.
  intros. unfold case_else_tr, sel_d, else_d. rewrite !to_list_of_list, else_kw. reflexivity.
Qed.
Lemma celse_tr1 : forall k v ks es r rest xs, case_else_tr (of_list (k :: v :: sel_d ks es :: (r :: rest) ++ [else_d xs])) =
  Some (of_list [Expand.sym "if"; of_list [Expand.sym "case/test"; v; of_list ks];
                 of_list (Expand.sym "let-values" :: ONull :: es); of_list (Expand.sym "case/else" :: v :: (r :: rest) ++ [else_d xs])]).
Proof.
  intros. unfold case_else_tr, sel_d. rewrite !to_list_of_list. rewrite last_last. unfold else_d at 2. rewrite to_list_of_list, else_kw.
  destruct rest; reflexivity.
Qed.
Lemma celse_tr2 : forall k v xs, case_else_tr (of_list [k; v; else_d xs]) = Some (of_list (Expand.sym "let-values" :: ONull :: xs)).
Proof. intros. unfold case_else_tr, else_d. rewrite !to_list_of_list, else_kw. reflexivity. Qed.
Lemma case_else_agrees : agrees [s2b "else"] case_else_rules case_else_tr.
Proof.
  apply use_agrees; [apply case_else_ok| |].
  - intros k a i r bs P [F1 [F2 F3]]. unfold matches, rule_pat in F2. destruct i as [|[|[|i]]]; cbn in F1; try (destruct i; discriminate); injection F1 as <-;
      cbn [rargs headed] in F2; unfold pv in F2.
    + inv_pats. from_datum.
      match goal with H1 : pm sel_p _ _ |- _ => apply sel_inv in H1 as (ks & es & E1 & ->) end.
      match goal with H1 : pm else_p _ _ |- _ => apply else_inv in H1 as (xs & E2 & ->) end.
      rewrite E1, E2 in *. rewrite H, celse_tr0. eexists. split; [reflexivity|]. cbn [app body]. unfold tl_, ti, test_t, null_t, tl_, ti.
      set (rho := env_of _ _).
      assert (V1 : rho (s2b "k") = Some (1, of_list ks)) by reflexivity.
      assert (V2 : rho (s2b "es") = Some (1, of_list es)) by reflexivity.
      assert (V3 : rho (s2b "xs") = Some (1, of_list xs)) by reflexivity.
      insting. rewrite !app_nil_r. reflexivity.
    + apply i_ell in F2 as (es1 & mids & es2 & b1 & rows & b2 & SL & H1 & H2 & H3 & ->). apply pmr_var in H2 as ->.
      change (length (vars 0 (PVar (s2b "rest")))) with 1. rewrite columns_var. inv_pats. cbn [app] in *. from_datum.
      match goal with H1 : pm sel_p _ _ |- _ => apply sel_inv in H1 as (ks & es & E1 & ->) end.
      match goal with H1 : pm else_p _ _ |- _ => apply else_inv in H1 as (xs & E2 & ->) end.
      rewrite map_app in SL. cbn [map] in SL. rewrite E1, E2 in *.
      destruct mids as [|m mids]; [exfalso; apply (F3 0 _ ltac:(lia) eq_refl); rewrite SL; apply celse_fwd0|].
      rewrite SL. cbn [map]. rewrite celse_tr1. eexists. split; [reflexivity|]. cbn [app body]. unfold tl_, ti, test_t, null_t, tl_, ti.
      set (rho := env_of _ _).
      assert (V1 : rho (s2b "k") = Some (1, of_list ks)) by reflexivity.
      assert (V2 : rho (s2b "es") = Some (1, of_list es)) by reflexivity.
      assert (V3 : rho (s2b "xs") = Some (1, of_list xs)) by reflexivity.
      assert (V4 : rho (s2b "rest") = Some (1, of_list (m :: mids))) by reflexivity.
      insting. rewrite !app_nil_r. reflexivity.
    + inv_pats. from_datum.
      match goal with H1 : pm else_p _ _ |- _ => apply else_inv in H1 as (xs & E2 & ->) end.
      rewrite E2 in *. rewrite H, celse_tr2. eexists. split; [reflexivity|]. cbn [app body]. unfold tl_, ti, null_t.
      set (rho := env_of _ _).
      assert (V3 : rho (s2b "xs") = Some (1, of_list xs)) by reflexivity.
      insting. rewrite !app_nil_r. reflexivity.
  - intros k a x H. unfold case_else_tr in H. destruct (to_list (OPair k a)) as [[|k0 [|v [|c rest]]]|] eqn:E; try discriminate.
    apply to_list_is in E. destruct (to_list c) as [[|kk es]|] eqn:EC; try discriminate. apply to_list_is in EC. subst c. rewrite E.
    destruct rest as [|d rest].
    + destruct (is_kw "else" kk) eqn:EK; [|discriminate]. apply kw_else in EK as ->.
      destruct (celse_fwd2 k0 v es) as [bs M]. exists (R_ case_else_rules 2), bs. split; [right; right; left; reflexivity|exact M].
    + assert (exists ks xs r, kk = of_list ks /\ d :: rest = r ++ [else_d xs]) as (ks & xs & r & -> & ->).
      { destruct (exists_last (l := d :: rest) ltac:(discriminate)) as [r [y ER]].
        assert (EL : last (d :: rest) ONull = y) by (rewrite ER; apply last_last).
        assert (exists ks xs, to_list kk = Some ks /\ y = else_d xs) as (ks & xs & EK & ->).
        { destruct rest as [|d2 rest].
          - cbn in EL. subst y. destruct (to_list kk) as [ks|]; [|discriminate]. destruct (to_list d) as [[|e xs]|] eqn:ED; try discriminate.
            destruct (is_kw "else" e) eqn:EE; [|discriminate]. apply kw_else in EE as ->. apply to_list_is in ED. exists ks, xs. auto.
          - rewrite EL in H. destruct (to_list kk) as [ks|]; [|discriminate]. destruct (to_list y) as [[|e xs]|] eqn:ED; try discriminate.
            destruct (is_kw "else" e) eqn:EE; [|discriminate]. apply kw_else in EE as ->. apply to_list_is in ED. exists ks, xs. auto. }
        exists ks, xs, r. split; auto. apply to_list_is; auto. }
      destruct (celse_fwd1 k0 v ks es r xs) as [bs M]. exists (R_ case_else_rules 1), bs. split; [right; left; reflexivity|exact M].
Qed.

(** * case *)
Notation sclause := (list obj * obj * list obj)%type.
Definition cl_d (c : sclause) : obj := of_list (of_list (fst (fst c)) :: snd (fst c) :: snd c).
Definition cl_s (c : sclause) : sclause := (map strip (fst (fst c)), strip (snd (fst c)), map strip (snd c)).
Definition cl_row (c : sclause) : list obj := [of_list (fst (fst c)); snd (fst c); of_list (snd c)].
Definition else2_p (x xs : string) : pat := PEll [kw "else"; pv x] (pv xs) [] None.
Lemma cl_rows : forall es rows, pmr clause_p es rows -> exists l, rows = map cl_row l /\ map strip es = map cl_d (map cl_s l).
Proof.
  intros es rows H. apply i_rows in H. induction H as [|e r es rows H HS IH]; [exists []; auto|].
  destruct IH as [l [-> E]]. unfold clause_p, seqp, pv in H. inv_pats. cbn [app] in *.
  match goal with H1 : slist e (?x :: ?y :: ?es), H2 : slist ?x ?ks |- _ =>
    exists ((ks, y, es) :: l); split; [reflexivity|]; cbn [map]; rewrite E, (slist_strip _ _ H1); cbn [map]; rewrite (slist_strip _ _ H2) end.
  reflexivity.
Qed.
Lemma cl_fwd : forall c, exists bs, pm clause_p (to_stx (cl_d c)) bs.
Proof.
  intros [[ks e] es]. eexists. unfold clause_p, cl_d, pv. cbn [fst snd].
  eapply (m_rest _ _ _ [to_stx (of_list ks); to_stx e] (map to_stx es)); [apply (slist_stx (of_list ks :: e :: es))|].
  eapply m_cons; [apply m_seq, slist_stx|]. eapply m_cons; constructor.
Qed.
Lemma cls_fwd : forall l, exists rows, pmr clause_p (map to_stx (map cl_d l)) rows.
Proof.
  induction l as [|c l [rows IH]]; [exists []; constructor|]. destruct (cl_fwd c) as [b H]. exists (b :: rows). constructor; auto.
Qed.
Lemma else2_fwd : forall x xs e es, exists bs, pm (else2_p x xs) (to_stx (else_d (e :: es))) bs.
Proof.
  intros. eexists. unfold else2_p, else_d, pv, kw.
  eapply (m_rest _ _ _ [to_stx (Expand.sym "else"); to_stx e] (map to_stx es)); [apply (slist_stx (Expand.sym "else" :: e :: es))|].
  eapply m_cons; [apply PmLit|]. eapply m_cons; constructor.
Qed.
Lemma else2_inv : forall x xs e b, pm (else2_p x xs) e b -> exists y ys, strip e = else_d (strip y :: map strip ys) /\ b = [y; of_list ys].
Proof.
  intros x xs e b H. unfold else2_p, kw, pv in H. inv_pats. cbn [app] in *.
  match goal with H1 : slist e (_ :: ?y :: ?es) |- _ => exists y, es; rewrite (slist_strip _ _ H1) end. split; reflexivity.
Qed.
(** the template of the clauses *)
Lemma cls_inst : forall (rho : env) (l : list sclause),
  rho (s2b "k") = Some (2, of_list (map (fun c => of_list (fst (fst c))) l)) ->
  rho (s2b "e") = Some (1, of_list (map (fun c => snd (fst c)) l)) ->
  rho (s2b "es") = Some (2, of_list (map (fun c => of_list (snd c)) l)) ->
  insts rho (TRep clause_t) = Some (map cl_d (map cl_s l)).
Proof.
  intros rho l E1 E2 E3. rewrite map_map. apply (insts_rep _ ([], ONull, [])).
  - split; cbn [clause_t tl_ ti ids flat_map app]; repeat constructor; rewrite ?E1, ?E2, ?E3; eauto; eexists; split; try reflexivity; apply map_length.
  - intros i L. set (d0 := ([], ONull, []) : sclause).
    assert (A1 : at_ i rho (s2b "k") = Some (1, of_list (fst (fst (nth i l d0))))).
    { rewrite (at_list i rho _ 1 _ (of_list (fst (fst d0))) E1) by (rewrite map_length; auto).
      rewrite (map_nth (fun c : sclause => of_list (fst (fst c)))). reflexivity. }
    assert (A2 : at_ i rho (s2b "e") = Some (0, snd (fst (nth i l d0)))).
    { rewrite (at_list i rho _ 0 _ (snd (fst d0)) E2) by (rewrite map_length; auto).
      rewrite (map_nth (fun c : sclause => snd (fst c))). reflexivity. }
    assert (A3 : at_ i rho (s2b "es") = Some (1, of_list (snd (nth i l d0)))).
    { rewrite (at_list i rho _ 1 _ (of_list (snd d0)) E3) by (rewrite map_length; auto).
      rewrite (map_nth (fun c : sclause => of_list (snd c))). reflexivity. }
    unfold clause_t, tl_, ti. insting. rewrite !app_nil_r. reflexivity.
Qed.
(** the data of the clauses *)
Definition cl_v (c : sclause) : option (list obj) * list obj := (Some (fst (fst c)), snd (fst c) :: snd c).
Lemma clause_plain : forall c, case_clause (cl_d c) = Some (cl_v c).
Proof. intros [[ks e] es]. unfold case_clause, cl_d. cbn [fst snd]. rewrite to_list_of_list, list_not_kw, to_list_of_list. reflexivity. Qed.
Lemma clauses_plain : forall l, case_clauses (map cl_d l) = Some (map cl_v l).
Proof. induction l as [|c l IH]; auto. cbn [map case_clauses]. rewrite clause_plain, IH. reflexivity. Qed.
Lemma clauses_else : forall l x xs, case_clauses (map cl_d l ++ [else_d (x :: xs)]) = Some (map cl_v l ++ [(None, x :: xs)]).
Proof.
  induction l as [|c l IH]; intros x xs.
  - cbn [map app case_clauses]. unfold case_clause, else_d. rewrite to_list_of_list, else_kw. reflexivity.
  - cbn [map app case_clauses]. rewrite clause_plain, IH. reflexivity.
Qed.
Lemma plain_v : forall l, plain_clauses (map cl_v l) = true.
Proof. induction l; auto. Qed.
Lemma plain_rev_v : forall l, plain_clauses (rev (map cl_v l)) = true.
Proof. intros. rewrite <- map_rev. apply plain_v. Qed.
Lemma plain_else : forall l b, plain_clauses (map cl_v l ++ [(None, b)]) = false.
Proof. induction l; intros; [reflexivity|]. apply IHl. Qed.
Lemma clauses_is : forall cls cl, case_clauses cls = Some cl -> plain_clauses cl = true -> exists l, cls = map cl_d l /\ cl = map cl_v l.
Proof.
  induction cls as [|c cls IH]; intros cl H PL; cbn [case_clauses] in H; [injection H as <-; exists []; auto|].
  destruct (case_clause c) as [x|] eqn:EC; [|discriminate]. destruct (case_clauses cls) as [y|] eqn:ER; [|discriminate]. injection H as <-.
  cbn [plain_clauses forallb] in PL. apply andb_true_iff in PL as [P1 P2]. destruct (IH _ eq_refl P2) as [l [-> ->]].
  unfold case_clause in EC. destruct (to_list c) as [[|k [|e es]]|] eqn:E; try discriminate. apply to_list_is in E.
  destruct (is_kw "else" k); [injection EC as <-; discriminate|]. destruct (to_list k) as [ks|] eqn:EK; [|discriminate]. injection EC as <-.
  apply to_list_is in EK. subst. exists ((ks, e, es) :: l). auto.
Qed.
Lemma clauses_app : forall a b cl, case_clauses (a ++ b) = Some cl -> exists ca cb, case_clauses a = Some ca /\ case_clauses b = Some cb /\ cl = ca ++ cb.
Proof.
  induction a as [|c a IH]; intros b cl H; [exists [], cl; auto|]. cbn [app case_clauses] in *.
  destruct (case_clause c) as [x|]; [|discriminate]. destruct (case_clauses (a ++ b)) as [y|] eqn:ER; [|discriminate]. injection H as <-.
  destruct (IH _ _ ER) as [ca [cb [-> [-> ->]]]]. exists (x :: ca), cb. auto.
Qed.
Lemma clauses_is_else : forall cls q b, case_clauses cls = Some (q ++ [(None, b)]) -> plain_clauses q = true ->
  exists l x xs, cls = map cl_d l ++ [else_d (x :: xs)].
Proof.
  intros cls q b H PL. destruct cls as [|c0 cls0]; [destruct q; discriminate|].
  destruct (exists_last (l := c0 :: cls0) ltac:(discriminate)) as [r [y ER]]. rewrite ER in *.
  destruct (clauses_app _ _ _ H) as [ca [cb [E1 [E2 E3]]]]. cbn [case_clauses] in E2. destruct (case_clause y) as [z|] eqn:EY; [|discriminate]. injection E2 as <-.
  apply app_inj_tail in E3 as [<- <-]. destruct (clauses_is _ _ E1 PL) as [l [-> _]].
  unfold case_clause in EY. destruct (to_list y) as [[|k [|e es]]|] eqn:E; try discriminate. apply to_list_is in E.
  destruct (is_kw "else" k) eqn:EK.
  - apply kw_else in EK. subst. exists l, e, es. auto.
  - destruct (to_list k); discriminate.
Qed.
Lemma case_fwd0 : forall k v, exists bs, matches (R_ case_rules 0) (of_list [k; v]) bs.
Proof.
  intros. eexists. unfold matches, rule_pat. cbn [R_ case_rules nth rargs headed]. fwd_list [k; v].
  eapply m_cons; [constructor|]. eapply m_cons; constructor.
Qed.
Lemma case_fwd1 : forall k v x xs, exists bs, matches (R_ case_rules 1) (of_list [k; v; else_d (x :: xs)]) bs.
Proof.
  intros. destruct (else2_fwd "e" "es" x xs) as [b H]. eexists. unfold matches, rule_pat. cbn [R_ case_rules nth rargs headed].
  fwd_list [k; v; else_d (x :: xs)]. eapply m_cons; [constructor|]. eapply m_cons; [constructor|]. eapply m_cons; [exact H|constructor].
Qed.
Lemma case_fwd2 : forall k v l, exists bs, matches (R_ case_rules 2) (of_list (k :: v :: map cl_d l)) bs.
Proof.
  intros. destruct (cls_fwd l) as [rows H]. eexists. unfold matches, rule_pat. cbn [R_ case_rules nth rargs headed].
  eapply (m_ell _ _ [] _ [to_stx k; to_stx v] (map to_stx (map cl_d l)) []); [rewrite app_nil_r; apply (slist_stx (k :: v :: map cl_d l))| |exact H|constructor].
  eapply m_cons; [constructor|]. eapply m_cons; constructor.
Qed.
Lemma case_fwd3 : forall k v l x xs, exists bs, matches (R_ case_rules 3) (of_list (k :: v :: map cl_d l ++ [else_d (x :: xs)])) bs.
Proof.
  intros. destruct (cls_fwd l) as [rows H]. destruct (else2_fwd "x" "xs" x xs) as [b H']. eexists. unfold matches, rule_pat. cbn [R_ case_rules nth rargs headed].
  eapply (m_ell _ _ _ _ [to_stx k; to_stx v] (map to_stx (map cl_d l)) [to_stx (else_d (x :: xs))]); [| |exact H|eapply m_cons; [exact H'|constructor]].
  - pose proof (slist_stx (k :: v :: map cl_d l ++ [else_d (x :: xs)])) as SL. cbn [map] in SL. rewrite map_app in SL. exact SL.
  - eapply m_cons; [constructor|]. eapply m_cons; constructor.
Qed.
Lemma case_tr2 : forall k v c l, case_tr (of_list (k :: v :: map cl_d (map cl_s (c :: l)))) =
  Some (of_list (Expand.sym "case" :: v :: map cl_d (map cl_s (c :: l)) ++ [of_list [Expand.sym "else"; of_list [Expand.sym "void"]]])).
Proof.
  intros. unfold case_tr. rewrite to_list_of_list.
  pose proof (clauses_plain (map cl_s (c :: l))) as E. pose proof (plain_v (map cl_s (c :: l))) as PV. cbn [map] in *. rewrite E.
  destruct (cl_v (cl_s c)) as [[ks|] b] eqn:EV; [|discriminate]. rewrite PV. reflexivity.
Qed.
Lemma case_tr3 : forall k v c l x xs, case_tr (of_list (k :: v :: map cl_d (map cl_s (c :: l)) ++ [else_d (x :: xs)])) =
  Some (of_list [Expand.sym "let"; of_list [of_list [Expand.sym "tmp"; v]];
                 of_list (Expand.sym "case/else" :: Expand.sym "tmp" :: map cl_d (map cl_s (c :: l)) ++ [else_d (x :: xs)])]).
Proof.
  intros. unfold case_tr. rewrite to_list_of_list.
  pose proof (clauses_else (map cl_s (c :: l)) x xs) as E. pose proof (plain_else (map cl_s (c :: l)) (x :: xs)) as PV.
  pose proof (plain_rev_v (map cl_s (c :: l))) as PR.
  assert (ER : rev (map cl_v (map cl_s (c :: l)) ++ [(None, x :: xs)]) = (None, x :: xs) :: rev (map cl_v (map cl_s (c :: l)))) by (rewrite rev_app_distr; reflexivity).
  cbn [map app] in *. rewrite E.
  destruct (cl_v (cl_s c)) as [[ks|] b] eqn:EV; [|discriminate]. rewrite PV, ER, PR. reflexivity.
Qed.
Lemma cl_columns : forall l, columns (length (vars 0 clause_p)) (map cl_row l) =
  [of_list (map (fun c => of_list (fst (fst c))) l); of_list (map (fun c => snd (fst c)) l); of_list (map (fun c => of_list (snd c)) l)].
Proof. intros. unfold columns, clause_p, seqp, pv. cbn [vars flat_map length seq map app Nat.add]. rewrite !map_map. reflexivity. Qed.
Lemma case_agrees : agrees [s2b "else"] case_rules case_tr.
Proof.
  apply use_agrees; [apply case_ok| |].
  - intros k a i r bs P [F1 [F2 F3]]. unfold matches, rule_pat in F2. destruct i as [|[|[|[|i]]]]; cbn in F1; try (destruct i; discriminate); injection F1 as <-;
      cbn [rargs headed] in F2; unfold pv in F2.
    + inv_pats. from_datum. cbn [app]. rewrite H. eexists. split; reflexivity.
    + change (PEll [kw "else"; PVar (s2b "e")] (PVar (s2b "es")) [] None) with (else2_p "e" "es") in F2.
      inv_pats. from_datum. 
      match goal with H1 : pm (else2_p _ _) _ _ |- _ => apply else2_inv in H1 as (y & ys & E1 & ->) end.
      rewrite E1 in *. rewrite H. unfold case_tr. rewrite to_list_of_list.
      pose proof (clauses_else [] (strip y) (map strip ys)) as CE. cbn [map app] in CE. rewrite CE. eexists. split; [reflexivity|].
      cbn [app body]. unfold tl_, ti, null_t. set (rho := env_of _ _).
      assert (V3 : rho (s2b "es") = Some (1, of_list ys)) by reflexivity. insting. rewrite !app_nil_r. reflexivity.
    + apply i_ell in F2 as (es1 & mids & es2 & b1 & rows & b2 & SL & H1 & H2 & H3 & ->). inv_pats. cbn [app] in *. rewrite !app_nil_r in *. from_datum.
      apply cl_rows in H2 as [l [-> EL]]. rewrite EL in SL.
      destruct l as [|c l]; [exfalso; apply (F3 0 _ ltac:(lia) eq_refl); rewrite SL; apply case_fwd0|].
      rewrite SL, case_tr2. eexists. split; [reflexivity|]. cbn [app body]. rewrite cl_columns. unfold tl_, ti.
      match goal with |- context [?v0 :: [of_list (map (fun c0 : sclause => of_list (fst (fst c0))) ?L); _; _]] => set (rho := env_of _ _);
        assert (V0 : rho (s2b "v") = Some (0, v0)) by reflexivity; pose proof (cls_inst rho L eq_refl eq_refl eq_refl) as R0 end.
      assert (N1 : rho (s2b "case") = None) by reflexivity. assert (N2 : rho (s2b "else") = None) by reflexivity.
      assert (N3 : rho (s2b "void") = None) by reflexivity. clearbody rho.
      unfold inst. rewrite insts_list. cbn [map]. rewrite R0. insting. rewrite ?app_nil_r. reflexivity.
    + apply i_ell in F2 as (es1 & mids & es2 & b1 & rows & b2 & SL & H1 & H2 & H3 & ->).
      change (PEll [kw "else"; PVar (s2b "x")] (PVar (s2b "xs")) [] None) with (else2_p "x" "xs") in H3.
      inv_pats. cbn [app] in *. rewrite !app_nil_r in *. from_datum.
      apply cl_rows in H2 as [l [-> EL]].
      match goal with H1 : pm (else2_p _ _) _ _ |- _ => apply else2_inv in H1 as (y & ys & E1 & ->) end.
      rewrite map_app, EL in SL. cbn [map] in SL. rewrite E1 in SL.
      destruct l as [|c l]; [exfalso; apply (F3 1 _ ltac:(lia) eq_refl); rewrite SL; apply case_fwd1|].
      rewrite SL, case_tr3. eexists. split; [reflexivity|]. cbn [body]. rewrite cl_columns. unfold tl_, ti. cbn [app].
      match goal with |- context [?v0 :: [of_list (map (fun c0 : sclause => of_list (fst (fst c0))) ?L); _; _; y; of_list ys]] => set (rho := env_of _ _);
        assert (V0 : rho (s2b "v") = Some (0, v0)) by reflexivity; pose proof (cls_inst rho L eq_refl eq_refl eq_refl) as R0 end.
      assert (N1 : rho (s2b "case/else") = None) by reflexivity. assert (N2 : rho (s2b "else") = None) by reflexivity.
      assert (N3 : rho (s2b "let") = None) by reflexivity. assert (N4 : rho (s2b "tmp") = None) by reflexivity.
      assert (V1 : rho (s2b "x") = Some (0, y)) by reflexivity. assert (V2 : rho (s2b "xs") = Some (1, of_list ys)) by reflexivity.
      clearbody rho.
      unfold inst. rewrite insts_list. cbn [map]. rewrite (insts_list rho [_; _; TRep clause_t; _]). cbn [map]. rewrite R0. insting. rewrite ?app_nil_r. reflexivity.
  - intros k a x H. unfold case_tr in H. destruct (to_list (OPair k a)) as [[|k0 [|v cls]]|] eqn:E; try discriminate.
    apply to_list_is in E. rewrite E. destruct cls as [|c cls].
    { destruct (case_fwd0 k0 v) as [bs M]. exists (R_ case_rules 0), bs. split; [left; reflexivity|exact M]. }
    destruct (case_clauses (c :: cls)) as [cl|] eqn:EC; [|discriminate].
    assert (D : (exists l, c :: cls = map cl_d l) \/ exists l x xs, c :: cls = map cl_d l ++ [else_d (x :: xs)]).
    { destruct (plain_clauses cl) eqn:PL; [left; destruct (clauses_is _ _ EC PL) as [l [EL _]]; eauto|right].
      assert (exists q b, cl = q ++ [(None, b)] /\ plain_clauses q = true) as (q & b & -> & PQ).
      { destruct cl as [|c1 cl]; [discriminate|].
        assert (R : forall w, (match rev (c1 :: cl) with (None, _) :: q => if plain_clauses q then Some w else None | _ => None end) <> (None : option obj) ->
                    exists q b, c1 :: cl = q ++ [(None, b)] /\ plain_clauses q = true).
        { intros w NN. destruct (rev (c1 :: cl)) as [|[[ks|] b] q] eqn:ER; try congruence. destruct (plain_clauses q) eqn:PQ; [|congruence].
          exists (rev q), b. split; [rewrite <- (rev_involutive (c1 :: cl)), ER; reflexivity|].
          unfold plain_clauses in *. rewrite forallb_forall in *. intros z HI. apply PQ. apply in_rev. auto. }
        destruct c1 as [[ks|] b1]; [|destruct cl as [|c2 cl]; [exists [], b1; auto|]].
        - eapply R. rewrite H. discriminate.
        - eapply R. rewrite H. discriminate. }
      eapply clauses_is_else; eauto. }
    destruct D as [[l EL]|[l [y [ys EL]]]]; rewrite EL.
    + destruct (case_fwd2 k0 v l) as [bs M]. exists (R_ case_rules 2), bs. split; [cbn; auto|exact M].
    + destruct (case_fwd3 k0 v l y ys) as [bs M]. exists (R_ case_rules 3), bs. split; [cbn; auto|exact M].
Qed.
