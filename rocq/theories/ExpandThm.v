(** C55: macro expansion and the check for unknown variables. *)
From Coq Require Import ZArith NArith Bool Ascii String List Arith Lia.
From Verif Require Import Base Heap Ast Check Expand CheckThm ExpandProofs.
Import ListNotations.
Local Open Scope list_scope.

(** ** Unknown variables

    A fully expanded expression is accepted exactly when every variable it reads
    is in scope. *)
Theorem C55_unknown_variables strict e sc : cexpr strict e ->
  (exists f, check_var f sc e = XOk tt) <-> forall x, reads e x -> In x sc.
Proof. intros H. apply (checker_iff strict e H sc). Qed.
Theorem C55_unknown_variables_rejected strict e sc x f : cexpr strict e -> reads e x -> ~ In x sc -> size e <= f -> check_var f sc e = XErr.
Proof.
  intros C R N L. assert (T := check_var_answers f sc e L). destruct (check_var f sc e) as [[]| |] eqn:E; auto; [|contradiction].
  exfalso. apply N. apply (proj1 (C55_unknown_variables strict e sc C)); eauto.
Qed.
(** A module is accepted exactly when every variable one of its forms reads is
    defined by one of its forms, earlier or later, or was in scope. *)
Theorem C55_module_variables strict es sc : (forall e, In e es -> mform strict e) ->
  (exists f, check_module f es sc = XOk tt) <-> forall e x, In e es -> mreads e x -> defines es x \/ In x sc.
Proof. apply checkm_iff. Qed.
(** The check always comes to an end. *)
Theorem C55_check_answers es sc f : (forall e, In e es -> size e <= f) -> check_module f es sc <> XFuel.
Proof.
  unfold check_module. generalize (List.concat (map defined_names es) ++ sc). intros sc'. induction es as [|e es IH]; simpl; [discriminate|].
  intros H. assert (T := check_top_answers f sc' e (H e (or_introl eq_refl))). destruct (check_top f sc' e); simpl; try congruence. apply IH. auto.
Qed.
(** A module that expands to fully expanded forms reads no unknown variable. *)
Theorem C55_accepted_module evalx f es xf sc es' xf' strict :
  expand_module evalx f es xf sc = XOk (es', xf') -> (forall e, In e es' -> mform strict e) ->
  forall e x, In e es' -> mreads e x -> defines es' x \/ In x sc.
Proof.
  unfold expand_module. intros H W. destruct (non_define evalx f es None _) as [[es1 st]| |]; try discriminate. simpl in H.
  destruct (mapx (define_values1 evalx f (x_forms st)) es1) as [es2| |]; try discriminate. simpl in H.
  destruct (check_module f es2 sc) as [[]| |] eqn:E; try discriminate. simpl in H. injection H as <- <-.
  apply (proj1 (C55_module_variables strict es2 sc W)). eauto.
Qed.

(** ** Determinism: the result does not depend on the fuel *)
Theorem C55_expansion_deterministic evalx es xf sc f g r s :
  expand_module evalx f es xf sc = r -> expand_module evalx g es xf sc = s -> r <> XFuel -> s <> XFuel -> r = s.
Proof.
  intros <- <- NF NG.
  assert (M : forall f g, f <= g -> ap (expand_module evalx f es xf sc) (expand_module evalx g es xf sc)).
  { intros a b L. apply (ap_le (fun f => expand_module evalx f es xf sc)); auto. intros n. apply expand_module_mono1. }
  destruct (le_lt_dec f g) as [L|L]; [destruct (M f g L)|destruct (M g f ltac:(lia))]; congruence.
Qed.

(** ** Code without macros is left as it is *)
Theorem C55_plain_code_unchanged evalx xf e : quiet xf e -> forall rb, exists f, forall g, f <= g -> expand_expr evalx g xf rb e = XOk e.
Proof. intros Q rb. destruct (quiet_stays evalx xf e Q rb) as [f F]. exists f. intros g L. eapply expand_le; eauto. Qed.
(** Fully expanded code in which everything bound is a symbol passes the compiler's
    own syntax check (C27), unless something in it looks like a nested
    define-values form. *)
Inductive inside : obj -> obj -> Prop :=
| InHere o : inside o o
| InCar o a d : inside o a -> inside o (OPair a d)
| InCdr o a d : inside o d -> inside o (OPair a d).
Lemma inside_list o x l : In x l -> inside o x -> inside o (olist l).
Proof. induction l as [|y l IH]; [intros []|]. intros [<-|I] J; rewrite olist_cons; [apply InCar|apply InCdr]; auto. Qed.
Lemma formal_parameters fm : formal_list true fm -> parameters fm.
Proof. induction 1 as [|x S|x p S _ IH]; [apply PmNull|apply PmRest; auto|apply PmCons; auto]. Qed.
Theorem C55_expanded_code_compiles e : cexpr true e -> (forall q, ~ inside (OPair (sym "define-values") q) e) -> accepts e.
Proof.
  intros H N. apply C27_checker_accepts_core. revert N.
  induction H as [o A|k d K|a b c _ Ha _ Hb _ Hc|y e Sy _ He|k bs body K SB _ HB NE _ HE|fm body F NE _ HE|cls FC _ HE|es NE _ HE|h args P _ HH _ HA]; intros N.
  - apply KAtom; auto.
  - apply KQuote; auto.
  - assert (X : forall z q, In z [a; b; c] -> ~ inside (OPair (sym "define-values") q) z).
    { intros z q I J. apply (N q). eapply inside_list; [right; exact I|exact J]. }
    apply KIf; [apply Ha|apply Hb|apply Hc]; intros q; apply X; simpl; auto.
  - apply KSet; auto. apply He. intros q J. apply (N q). eapply inside_list; [|exact J]. simpl; auto.
  - apply KLet; auto.
    + intros ids e I x J. apply SB; auto. exists (ids, e). auto.
    + intros b I. apply HB; auto. intros q J. apply (N q). apply InCdr, InCar. unfold obindings. eapply inside_list; [apply in_map; exact I|].
      eapply inside_list; [right; left; reflexivity|exact J].
    + intros e I. apply HE; auto. intros q J. apply (N q). apply InCdr, InCdr. eapply inside_list; eauto.
  - apply KLambda; auto; [apply formal_parameters; auto|]. intros e I. apply HE; auto. intros q J. apply (N q). apply InCdr, InCdr. eapply inside_list; eauto.
  - apply (KCase false cls).
    + intros c I. destruct (FC c I). split; auto. apply formal_parameters; auto.
    + intros c I e J. apply (HE c I e J). intros q Q. apply (N q). apply InCdr. unfold oclauses. eapply inside_list; [apply in_map; exact I|]. apply InCdr.
      eapply inside_list; eauto.
  - apply KBegin; auto. intros e I. apply HE; auto. intros q J. apply (N q). apply InCdr. eapply inside_list; eauto.
  - apply KApp; try discriminate.
    + intros k K E. subst h. unfold keywords in K. simpl in K. destruct K as [<-|K]; [apply (N (olist args)); apply InHere|].
      revert P. repeat (destruct K as [<-|K]; [intros P; eapply P; [|reflexivity]; unfold expr_keywords; simpl; tauto|]). destruct K.
    + intros e I. apply HA; auto. intros q J. apply (N q). apply InCdr. eapply inside_list; eauto.
Qed.

(** ** Macros are found by name

    When no two transformers have the same name, recording a new one makes it
    available and leaves the others as they were. *)
Definition fn_of (x : xform) : tr := match x with Xf fn _ => fn end.
Definition finds (n : name) (xf : xforms) (fn : tr) : Prop := exists x, xassoc n xf = Some x /\ fn_of x = fn.
Lemma xassoc_in n x xf : NoDup (map fst xf) -> (xassoc n xf = Some x <-> In (n, x) xf).
Proof.
  induction xf as [|[m y] xf IH]; intros N; [split; [discriminate|intros []]|]. inversion N; subst. simpl. destruct (name_dec n m) as [->|D].
  - split; [intros E; injection E as ->; auto|]. intros [E|I]; [congruence|]. exfalso. apply H1. change m with (fst (m, x)). apply in_map. auto.
  - rewrite IH by auto. split; auto. intros [E|I]; [congruence|auto].
Qed.
Theorem C55_macro_recorded st n fn :
  NoDup (map fst (x_forms st)) -> ~ In n (map fst (x_forms st)) ->
  let st' := record_xform (OSym n) fn st in
  NoDup (map fst (x_forms st')) /\ finds n (x_forms st') fn /\
  forall m g, m <> n -> (finds m (x_forms st') g <-> finds m (x_forms st) g).
Proof.
  intros ND NI. cbn [record_xform x_forms]. set (sc := (n, Xf fn []) :: x_forms st). set (u := fun e : name * xform => _).
  assert (U : forall e, fst (u e) = fst e /\ fn_of (snd (u e)) = fn_of (snd e)).
  { intros [m [g s]]. unfold u. destruct (mem_sym _ _); auto. }
  assert (MF : map fst (rev (map u sc)) = rev (map fst sc)).
  { rewrite map_rev. f_equal. rewrite map_map. apply map_ext. intros e. apply U. }
  assert (ND' : NoDup (map fst (rev (map u sc)))).
  { rewrite MF. apply NoDup_rev. unfold sc. simpl. constructor; auto. }
  assert (F : forall m g, finds m (rev (map u sc)) g <-> exists x, In (m, x) sc /\ fn_of x = g).
  { intros m g. unfold finds. split.
    - intros [x [E G]]. apply xassoc_in in E; auto. apply in_rev in E. apply in_map_iff in E as [[m' y] [E I]].
      destruct (U (m', y)) as [U1 U2]. rewrite E in U1, U2. simpl in U1, U2. exists y. subst m'. split; auto. congruence.
    - intros [x [I G]]. destruct (U (m, x)) as [U1 U2]. exists (snd (u (m, x))). split; [|simpl in U2; congruence].
      apply xassoc_in; auto. apply -> in_rev. apply in_map_iff. exists (m, x). split; auto. destruct (u (m, x)); simpl in *; congruence. }
  split; [exact ND'|]. split.
  - apply F. exists (Xf fn []). split; auto. left; auto.
  - intros m g D. rewrite F. unfold finds, sc. split.
    + intros [x [[E|I] G]]; [congruence|]. exists x. split; auto. apply xassoc_in; auto.
    + intros [x [E G]]. exists x. split; auto. right. apply xassoc_in; auto.
Qed.

(** At the prompt a macro definition becomes a call of (void), defines no name, and the
    macro is known from then on. *)
Theorem C55_prompt_macro evalx n rhs fn xf sc : quiet xf rhs -> evalx rhs = Some [fn] ->
  NoDup (map fst xf) -> ~ In n (map fst xf) ->
  exists f xf', (forall g, f <= g ->
      expand_prompt evalx g (olist [sym "define-syntaxes"; olist [OSym n]; rhs]) xf sc = XOk (olist [sym "void"], xf', sc)) /\
    finds n xf' fn /\ forall m k, m <> n -> (finds m xf' k <-> finds m xf k).
Proof.
  intros Q E ND NI. destruct (C55_plain_code_unchanged evalx xf rhs Q true) as [f F].
  destruct (C55_macro_recorded (mkmst xf [] []) n fn ND NI) as (_ & FN & FO).
  exists (S (S (S f))), (x_forms (record_xform (OSym n) fn (mkmst xf [] []))). split; [|split; [exact FN|exact FO]].
  intros g L. destruct g as [|[|g]]; try lia. unfold expand_prompt, expand_module.
  assert (ND1 : non_define evalx (S (S g)) [olist [sym "define-syntaxes"; olist [OSym n]; rhs]] None (mkmst xf [] [])
                = XOk ([], record_xform (OSym n) fn (mkmst xf [] []))).
  { cbn [non_define]. set (w := expand_top _ _ _). assert (W : w = XOk (olist [sym "define-syntaxes"; olist [OSym n]; rhs], xf)) by reflexivity.
    rewrite W. cbn [xbind]. clear w W. set (e := olist _). assert (W1 : form_is "define-syntaxes" e = true) by reflexivity. rewrite W1.
    assert (W2 : check_define_form e = Some ([OSym n], rhs)) by reflexivity. rewrite W2. cbn [duplicate xform_ids existsb orb].
    rewrite F by lia. cbn [xbind]. rewrite E. reflexivity. }
  rewrite ND1. reflexivity.
Qed.

(** ** Findings

    The variable a set! assigns is not looked up. *)
Theorem C55_assigned_unknown_refuted evalx :
  expand_module evalx 3 [olist [sym "set!"; sym "nope"; OFix 1]] [] [] = XOk ([olist [sym "set!"; sym "nope"; OFix 1]], []).
Proof. reflexivity. Qed.
(** Formals that are not symbols are let through, and refused later by the
    compiler's check. *)
Theorem C55_formals_unchecked_refuted evalx :
  let e := olist [sym "lambda"; olist [OFix 1]; OFix 2] in
  expand_module evalx 5 [e] [] [] = XOk ([e], []) /\ ~ accepts e.
Proof.
  intros e. split; [reflexivity|]. intros [f F]. destruct f as [|[|[|f]]]; try discriminate F; destruct f; discriminate F.
Qed.
(** An application whose operator expands to a keyword turns into a malformed
    special form. *)
Theorem C55_operator_becomes_keyword_refuted evalx :
  let e := olist [olist [sym "begin"; sym "quote"]; OFix 1; OFix 2] in
  let e' := olist [sym "quote"; OFix 1; OFix 2] in
  expand_module evalx 9 [e] [] [] = XOk ([e'], []) /\ ~ accepts e'.
Proof.
  intros e e'. split; [reflexivity|]. intros [f F]. destruct f as [|f]; discriminate F.
Qed.
(** A module that defines a macro under the name of an imported one gets the
    imported one; after defining one more macro it gets its own. *)
Definition const_tr (o : obj) : tr := fun _ => Some o.
Definition imports_m : xforms := [(s2b "m", Xf (const_tr (OFix 1)) [])].
Definition macros (o : obj) : option (list tr) :=
  match o with OFix z => Some [const_tr (OFix z)] | _ => None end.
Definition defmacro (m : string) (z : Z) : obj := olist [sym "define-syntaxes"; olist [sym m]; OFix z].
Theorem C55_own_macro_shadowed_refuted :
  (exists xf, expand_module macros 9 [defmacro "m" 2; olist [sym "m"]] imports_m [] = XOk ([OFix 1], xf)) /\
  (exists xf, expand_module macros 9 [defmacro "m" 2; defmacro "n" 3; olist [sym "m"]] imports_m [] = XOk ([OFix 2], xf)).
Proof. split; eexists; reflexivity. Qed.
(** A local variable does not shadow a macro of the same name. *)
Theorem C55_local_shadows_macro_refuted evalx :
  expand_module evalx 9 [olist [sym "lambda"; olist [sym "m"]; olist [sym "m"]]] imports_m [] =
  XOk ([olist [sym "lambda"; olist [sym "m"]; OFix 1]], imports_m).
Proof. reflexivity. Qed.
(** Only the first form of a begin is kept at the prompt; the names the others
    define count as known from then on. *)
Theorem C55_prompt_begin_refuted evalx :
  expand_prompt evalx 9 (olist [sym "begin"; olist [sym "define-values"; olist [sym "a"]; OFix 1]; olist [sym "define-values"; olist [sym "b"]; OFix 2]]) [] [] =
  XOk (olist [sym "define-values"; olist [sym "a"]; OFix 1], [], [sym "a"; sym "b"]).
Proof. reflexivity. Qed.
(** Extra expressions in a definition inside a body are dropped. *)
Theorem C55_extra_expression_dropped_refuted evalx :
  expand_module evalx 9 [olist [sym "lambda"; ONull; olist [sym "define-values"; olist [sym "x"]; OFix 1; OFix 2]; sym "x"]] [] [] =
  XOk ([olist [sym "lambda"; ONull; olist [sym "letrec-values"; olist [olist [olist [sym "x"]; OFix 1]]; sym "x"]]], []).
Proof. reflexivity. Qed.
(** Two definitions of the same variable in a body give a letrec-values form that
    the expander refuses when it is written out. *)
Theorem C55_duplicate_definition_refuted evalx :
  let d z := olist [sym "define-values"; olist [sym "x"]; OFix z] in
  let out := olist [sym "letrec-values"; olist [olist [olist [sym "x"]; OFix 1]; olist [olist [sym "x"]; OFix 2]]; sym "x"] in
  expand_module evalx 9 [olist [sym "lambda"; ONull; d 1%Z; d 2%Z; sym "x"]] [] [] = XOk ([olist [sym "lambda"; ONull; out]], []) /\
  expand_module evalx 9 [olist [sym "lambda"; ONull; out]] [] [] = XErr.
Proof. split; reflexivity. Qed.

(** ** Concrete cases *)
Definition sample : obj :=
  olist [sym "lambda"; OPair (sym "x") (sym "r");
         olist [sym "let-values"; olist [olist [olist [sym "y"]; sym "x"]]; olist [sym "f"; sym "y"; sym "r"]]].
Lemma sample_cexpr : cexpr true sample.
Proof.
  unfold sample. rewrite !olist_cons. apply (XLambda true _ [_]); [|discriminate|].
  - apply FlCons; [intros _; left; eexists; reflexivity|]. apply FlRest. left; eexists; reflexivity.
  - intros e [<-|[]]. rewrite <- !olist_cons. apply (XLet true "let-values" [([sym "y"], sym "x")] [_]); [left; auto| | |discriminate|].
    + intros _ x [b [[<-|[]] B]]. destruct B as [<-|[]]. left; eexists; reflexivity.
    + intros b [<-|[]]. apply XAtom. exact Logic.I.
    + intros e [<-|[]]. rewrite olist_cons. apply XApp.
      * intros k K E. unfold expr_keywords in K. simpl in K. repeat (destruct K as [<-|K]; [discriminate E|]). destruct K.
      * apply XAtom. exact Logic.I.
      * intros e [<-|[<-|[]]]; apply XAtom; exact Logic.I.
Qed.
Example C55_sample_accepted : exists f, check_var f [sym "f"] sample = XOk tt.
Proof. exists 9. reflexivity. Qed.
Example C55_sample_reads : reads sample (sym "f").
Proof.
  unfold sample. rewrite !olist_cons. apply (RdLambda _ [_]) with (e := olist [sym "let-values"; olist [olist [olist [sym "y"]; sym "x"]]; olist [sym "f"; sym "y"; sym "r"]]); [left; reflexivity| |].
  - apply (RdBody "let-values" [([sym "y"], sym "x")] [olist [sym "f"; sym "y"; sym "r"]] (olist [sym "f"; sym "y"; sym "r"])); [left; auto|left; auto| |].
    + apply (RdApp (sym "f") [sym "y"; sym "r"] (sym "f")); [|left; auto|apply RdVar; left; eexists; reflexivity].
      intros k K E. unfold expr_keywords in K. simpl in K. repeat (destruct K as [<-|K]; [discriminate E|]). destruct K.
    + intros [b [[<-|[]] B]]. destruct B as [E|[]]. discriminate E.
  - intros B. apply (formals_names_spec (OPair (sym "x") (sym "r")) [sym "x"; sym "r"] eq_refl) in B. simpl in B. destruct B as [E|[E|[]]]; discriminate E.
Qed.
Example C55_sample_rejected : check_var 99 [] sample = XErr.
Proof. reflexivity. Qed.
Example C55_sample_compiles : accepts sample.
Proof. exists 9. reflexivity. Qed.
Example C55_forward_reference :
  let d1 := olist [sym "define-values"; olist [sym "g"]; olist [sym "lambda"; ONull; olist [sym "h"]]] in
  let d2 := olist [sym "define-values"; olist [sym "h"]; olist [sym "lambda"; ONull; OFix 1]] in
  check_module 9 [d1; d2] [] = XOk tt /\ check_module 9 [d1] [] = XErr.
Proof. split; reflexivity. Qed.
Example C55_sample_quiet : quiet imports_m sample.
Proof.
  assert (A : forall n, In n ["x"; "y"; "f"; "r"]%string -> quiet imports_m (sym n)).
  { intros n I. apply QAtom; [exact Logic.I|]. intros m E. injection E as <-. simpl. simpl in I.
    intros [E|[]]. repeat (destruct I as [<-|I]; [discriminate E|]). destruct I. }
  unfold sample. rewrite olist_cons. rewrite olist_cons. apply QLambda; [discriminate|].
  intros e [<-|[]]. apply (QLet imports_m "let-values" [([sym "y"], sym "x")] [olist [sym "f"; sym "y"; sym "r"]]); [left; auto| | | |discriminate|].
  - intros x [b [[<-|[]] B]]. destruct B as [<-|[]]. left; eexists; reflexivity.
  - simpl. constructor; [intros []|constructor].
  - intros b [<-|[]]. apply A. simpl; auto.
  - intros e [<-|[]]. rewrite olist_cons. apply QApp.
    + intros k K E. unfold all_keywords, expr_keywords in K. simpl in K. repeat (destruct K as [<-|K]; [discriminate E|]). destruct K.
    + apply A. simpl; auto.
    + intros e [<-|[<-|[]]]; apply A; simpl; auto.
Qed.
Example C55_recorded_case : NoDup (map fst imports_m) /\ ~ In (s2b "n") (map fst imports_m).
Proof. split; [constructor; [intros []|constructor]|]. intros [E|[]]. discriminate E. Qed.
Print Assumptions C55_unknown_variables.
Print Assumptions C55_unknown_variables_rejected.
Print Assumptions C55_module_variables.
Print Assumptions C55_check_answers.
Print Assumptions C55_accepted_module.
Print Assumptions C55_expansion_deterministic.
Print Assumptions C55_plain_code_unchanged.
Print Assumptions C55_expanded_code_compiles.
Example C55_prompt_macro_met : quiet imports_m sample /\ NoDup (map fst imports_m) /\ ~ In (s2b "n") (map fst imports_m).
Proof. split; [exact C55_sample_quiet|exact C55_recorded_case]. Qed.
Print Assumptions C55_macro_recorded.
Print Assumptions C55_prompt_macro.
Print Assumptions C55_assigned_unknown_refuted.
Print Assumptions C55_formals_unchecked_refuted.
Print Assumptions C55_operator_becomes_keyword_refuted.
Print Assumptions C55_own_macro_shadowed_refuted.
Print Assumptions C55_local_shadows_macro_refuted.
Print Assumptions C55_prompt_begin_refuted.
Print Assumptions C55_extra_expression_dropped_refuted.
Print Assumptions C55_duplicate_definition_refuted.
