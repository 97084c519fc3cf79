(** C57: definitions inside bodies. *)
From Coq Require Import ZArith NArith Bool Ascii String List Arith Lia.
From Verif Require Import Base Heap HeapM Ast Sem Check Expand CheckThm ExpandProofs BodyProofs.
Import ListNotations.
Local Open Scope list_scope.

(** A body that stands for the items [l] (definitions and expressions, macros
    expanded and begin forms spliced, the last one an expression) compiles, and
    running the result is running the items. *)
Theorem C57_internal_definitions evalx lit xf os l :
  items_all evalx lit xf os l -> ends_in_expr l ->
  exists cs, compiles_body evalx lit xf os cs /\
    forall prim t r s x s', evseq prim t r s cs x s' <-> run_body prim t r s l x s'.
Proof.
  intros I X. exists (body_code l). split; [apply body_compiles; auto|]. intros. apply body_code_meaning; auto.
Qed.
(** There is one such result. *)
Theorem C57_one_meaning evalx lit xf os a b : compiles_body evalx lit xf os a -> compiles_body evalx lit xf os b -> a = b.
Proof. apply compiles_body_det. Qed.
(** The same holds of the bodies of lambda and let-values. *)
Theorem C57_lambda_body evalx lit xf rb fm params os l :
  pformals fm = POk params -> items_all evalx lit xf os l -> ends_in_expr l ->
  exists cs, compiles evalx lit xf rb (OPair (sym "lambda") (OPair fm (olist os))) (ELam params cs) /\
    forall prim t r s x s', evseq prim t r s cs x s' <-> run_body prim t r s l x s'.
Proof.
  intros F I X. destruct (C57_internal_definitions evalx lit xf os l I X) as [cs [C M]]. exists cs. split; auto.
  destruct C as [f [os' [E P]]]. exists (S f), (OPair (sym "lambda") (OPair fm (olist os'))). split.
  - rewrite expand_expr_S. cbv zeta. kwred. unfold check_clause. rewrite to_olist.
    assert (NE : os <> []) by (intros ->; inversion I; subst; destruct X as [[|] [? X]]; discriminate). destruct os as [|a r]; [congruence|]. rewrite E. reflexivity.
  - destruct P as [g P]. exists (S g).
    change (parse lit (S g) (OPair (sym "lambda") (OPair fm (olist os')))) with (do fm <- pformals fm; do es <- ploop (parse lit g) (olist os'); POk (ELam fm es)).
    rewrite F. cbn [pbind]. rewrite P. reflexivity.
Qed.

(** A variable read before its definition has run is reported, whatever a variable
    of that name around the body holds. *)
Lemma bind_env_other y : forall xs base r, ~ In y xs -> lookup_env y (bind_env xs base r) = lookup_env y r.
Proof.
  induction xs as [|x xs IH]; intros base r N; auto. cbn [bind_env]. rewrite IH by (intros I; apply N; right; auto). cbn [lookup_env].
  destruct (ident_eqb_spec x y); auto. exfalso. apply N. left; auto.
Qed.
Lemma bind_env_in y : forall xs base r, In y xs -> exists i, i < List.length xs /\ lookup_env y (bind_env xs base r) = Some (base + i).
Proof.
  induction xs as [|x xs IH]; intros base r I; [destruct I|]. cbn [bind_env]. destruct (in_dec ident_dec y xs) as [J|J].
  - destruct (IH (S base) ((x, base) :: r) J) as [i [L E]]. exists (S i). split; [simpl; lia|]. rewrite E. f_equal. lia.
  - destruct I as [->|I]; [|contradiction]. exists 0. split; [simpl; lia|]. rewrite bind_env_other by auto. cbn [lookup_env]. rewrite ident_eqb_refl. f_equal. lia.
Qed.
Theorem C57_early_use prim t r s xs y l :
  In y (defined (IDef xs (EVar y) :: l)) -> exists s', run_body prim t r s (IDef xs (EVar y) :: l) (RErr (ErrInit y)) s'.
Proof.
  intros I. set (all := IDef xs (EVar y) :: l) in *. destruct (bind_env_in y (defined all) (List.length (cells_of s)) r I) as [i [L E]].
  eexists. apply RbDefs. apply RiDefErr. eapply EvLocalInit; [exact E|]. unfold add_cells. cbn [cells_of]. rewrite nth_error_app2 by lia.
  replace (List.length (cells_of s) + i - List.length (cells_of s)) with i by lia. clear -L. change (defined (IDef xs (EVar y) :: l)) with (defined all).
  revert i L. induction (List.length (defined all)) as [|n IH]; intros i L; [lia|]. destruct i; [reflexivity|]. apply IH. lia.
Qed.

(** A body cannot end in a definition. *)
Theorem C57_ends_in_definition_rejected evalx xf os o ids rhs :
  (forall e, In e os -> exists e', expands evalx xf false e e' /\ no_form e') ->
  expands evalx xf false o (olist [sym "define-values"; olist ids; rhs]) ->
  exists f, forall g, f <= g -> body_loop_of evalx g xf (os ++ [o]) = XErr.
Proof.
  intros H [f E].
  assert (X : forall a q, os ++ [o] = a :: q -> exists f, forall g, f <= g -> body_loop evalx g xf a q [] = XErr).
  { induction os as [|b os IH]; intros a q EQ.
    - injection EQ as <- <-. exists (S f). intros [|g] L; [lia|]. rewrite body_loop_S. rewrite (expand_le evalx f g xf false o _ ltac:(lia) E). reflexivity.
    - injection EQ as <- <-. destruct (H b (or_introl eq_refl)) as [e' [[f1 E1] N]].
      destruct (os ++ [o]) as [|a q] eqn:Q; [destruct os; discriminate|]. destruct (IH (fun e I => H e (or_intror I)) a q eq_refl) as [f2 E2].
      exists (S (f1 + f2)). intros [|g] L; [lia|]. rewrite body_loop_S. rewrite (expand_le evalx f1 g xf false b _ ltac:(lia) E1). cbn [xbind].
      rewrite !(no_form_is e') by (auto; simpl; auto). rewrite E2 by lia. reflexivity. }
  destruct (os ++ [o]) as [|a q] eqn:Q; [destruct os; discriminate|]. destruct (X a q eq_refl) as [f1 F1]. exists (S f1). intros [|g] L; [lia|].
  rewrite body_loop_of_S. apply F1. lia.
Qed.

(** ** Findings

    A macro defined inside a body puts everything after it in an inner scope: a
    procedure defined before it cannot call one defined after it. *)
Definition dv (x : string) (e : obj) : obj := olist [sym "define-values"; olist [sym x]; e].
Definition no_macro (o : obj) : option (list tr) := Some [].
Theorem C57_definitions_around_macro_refuted :
  let f := dv "f" (olist [sym "lambda"; ONull; olist [sym "g"]]) in
  let g := dv "g" (olist [sym "lambda"; ONull; OFix 1]) in
  let m := olist [sym "define-syntaxes"; ONull; OFix 0] in
  let call := olist [sym "f"] in
  (exists r, expand_module no_macro 20 [olist [sym "lambda"; ONull; f; g; call]] [] [] = XOk r) /\
  expand_module no_macro 20 [olist [sym "lambda"; ONull; f; m; g; call]] [] [] = XErr.
Proof. split; [eexists|]; reflexivity. Qed.

(** ** A concrete body: (define-values (x) 1) (begin (f x) (define-values (y) x)) y *)
Definition lit0 (o : obj) : val := match o with OFix z => VFix z | OTrue => VTrue | _ => VFalse end.
Definition body0 : list obj :=
  [dv "x" (OFix 1); olist [sym "begin"; olist [sym "f"; sym "x"]; dv "y" (sym "x")]; sym "y"].
Example C57_case evalx : items_all evalx lit0 [] body0
  [IDef [Id "x"] (EConst (VFix 1)); IExpr (EApp (EVar (Id "f")) [EVar (Id "x")]); IDef [Id "y"] (EVar (Id "x")); IExpr (EVar (Id "y"))]
  /\ ends_in_expr [IDef [Id "x"] (EConst (VFix 1)); IExpr (EApp (EVar (Id "f")) [EVar (Id "x")]); IDef [Id "y"] (EVar (Id "x")); IExpr (EVar (Id "y"))].
Proof.
  split; [|exists [IDef [Id "x"] (EConst (VFix 1)); IExpr (EApp (EVar (Id "f")) [EVar (Id "x")]); IDef [Id "y"] (EVar (Id "x"))]; eexists; reflexivity].
  assert (D : forall x e c, (exists f, expand_expr evalx f [] true e = XOk e) -> parse lit0 1 e = POk c -> items evalx lit0 [] (dv x e) [IDef [Id x] c]).
  { intros x e c [f F] P. apply ItDef with (ids := [sym x]) (rhs := e).
    - exists 1. reflexivity.
    - constructor; [|constructor]. unfold sym, pident, s2b. rewrite string_of_list_ascii_of_string. reflexivity.
    - exists f, e. eauto. }
  assert (V : forall x, (exists f, expand_expr evalx f [] true (sym x) = XOk (sym x))) by (intros x; exists 1; reflexivity).
  unfold body0. change [IDef [Id "x"] (EConst (VFix 1)); IExpr (EApp (EVar (Id "f")) [EVar (Id "x")]); IDef [Id "y"] (EVar (Id "x")); IExpr (EVar (Id "y"))]
    with ([IDef [Id "x"] (EConst (VFix 1))] ++ ([IExpr (EApp (EVar (Id "f")) [EVar (Id "x")])] ++ [IDef [Id "y"] (EVar (Id "x"))] ++ []) ++ [IExpr (EVar (Id "y"))] ++ []).
  apply IaCons; [apply D; [exists 1|]; reflexivity|]. apply IaCons.
  - apply ItBegin with (os := [olist [sym "f"; sym "x"]; dv "y" (sym "x")]); [exists 5; reflexivity|discriminate|].
    apply IaCons; [|apply IaCons; [apply D; [apply V|reflexivity]|apply IaNil]].
    apply ItExpr with (o' := olist [sym "f"; sym "x"]) (g := 3); [exists 3; reflexivity| |reflexivity].
    intros k K q E. injection E as E _. simpl in K. repeat (destruct K as [<-|K]; [discriminate E|]). destruct K.
  - apply IaCons; [|apply IaNil]. apply ItExpr with (o' := sym "y") (g := 1); [exists 1; reflexivity|intros k K q E; discriminate E|reflexivity].
Qed.
(** (define-values (y) y) y, and a body that ends in a definition *)
Example C57_early_case : In (Id "y") (defined [IDef [Id "y"] (EVar (Id "y")); IExpr (EVar (Id "y"))]).
Proof. left. reflexivity. Qed.
Example C57_ends_case evalx :
  (forall e, In e [sym "a"] -> exists e', expands evalx [] false e e' /\ no_form e') /\
  expands evalx [] false (dv "x" (OFix 1)) (olist [sym "define-values"; olist [sym "x"]; OFix 1]).
Proof.
  split; [|exists 1; reflexivity]. intros e [<-|[]]. exists (sym "a"). split; [exists 1; reflexivity|]. intros k K q E. discriminate E.
Qed.

Print Assumptions C57_internal_definitions.
Print Assumptions C57_one_meaning.
Print Assumptions C57_lambda_body.
Print Assumptions C57_early_use.
Print Assumptions C57_ends_in_definition_rejected.
Print Assumptions C57_definitions_around_macro_refuted.
