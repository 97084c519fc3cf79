(** Specification and lemmas for C56: the derived forms. *)
From Coq Require Import ZArith NArith Bool Ascii String List Arith Lia.
From Verif Require Import Base Heap HeapM Ast Sem Check Expand Derived CheckThm ExpandProofs BodyProofs.
Import ListNotations.
Local Open Scope list_scope.

(** The form [(k . parts)]. *)
Definition form (k : string) (parts : list obj) : obj := OPair (sym k) (olist parts).

(** ** Specification: what the derived forms do, given their compiled parts *)
Section Rules.
Variable prim : N -> list val -> heap -> option presult.
Variable t : bool.
Notation eval := (eval prim).
Notation evseq := (evseq prim).
Notation eval1 := (eval1 prim).
Notation evargs := (evargs prim).

(** and: from left to right, up to the first false. *)
Inductive and_rule (r : lenv) : store -> list expr -> res -> store -> Prop :=
| AndNone s : and_rule r s [] (RVals [VTrue]) s
| AndLast s e x s1 : eval t r s e x s1 -> and_rule r s [e] x s1
| AndFalse s e l s1 : l <> [] -> eval t r s e (RVals [VFalse]) s1 -> and_rule r s (e :: l) (RVals [VFalse]) s1
| AndNext s e l v s1 x s2 : l <> [] -> eval t r s e (RVals [v]) s1 -> v <> VFalse -> and_rule r s1 l x s2 -> and_rule r s (e :: l) x s2
| AndErr s e l y s1 : l <> [] -> eval t r s e (RErr y) s1 -> and_rule r s (e :: l) (RErr y) s1.
(** or: from left to right, up to the first value other than false; each value is
    kept in a variable or-t that the later expressions see. *)
Inductive or_rule : lenv -> store -> list expr -> res -> store -> Prop :=
| OrNone r s : or_rule r s [] (RVals [VFalse]) s
| OrLast r s e x s1 : eval t r s e x s1 -> or_rule r s [e] x s1
| OrTrue r s e l v s1 : l <> [] -> eval1 t r s e (inl v) s1 -> v <> VFalse -> v <> VUnbound -> or_rule r s (e :: l) (RVals [v]) (add_cells [v] s1)
| OrUnbound r s e l s1 : l <> [] -> eval1 t r s e (inl VUnbound) s1 ->
    or_rule r s (e :: l) (RErr (ErrInit (Id "or-t"))) (add_cells [VUnbound] s1)
| OrNext r s e l s1 x s2 : l <> [] -> eval1 t r s e (inl VFalse) s1 ->
    or_rule ((Id "or-t", List.length (cells_of s1)) :: r) (add_cells [VFalse] s1) l x s2 -> or_rule r s (e :: l) x s2
| OrErr r s e l y s1 : l <> [] -> eval1 t r s e (inr y) s1 -> or_rule r s (e :: l) (RErr y) s1.
(** [(void)] *)
Definition void_call : expr := EApp (EVar (Id "void")) [].
(** cond: the body of the first clause whose test is not false; [None] is else. *)
Inductive cond_rule (r : lenv) : store -> list (option expr * list expr) -> res -> store -> Prop :=
| CondNone s x s1 : eval t r s void_call x s1 -> cond_rule r s [] x s1
| CondElse s body x s1 : evseq t r s body x s1 -> cond_rule r s [(None, body)] x s1
| CondTrue s e body l v s1 x s2 : eval t r s e (RVals [v]) s1 -> v <> VFalse -> evseq t r s1 body x s2 -> cond_rule r s ((Some e, body) :: l) x s2
| CondFalse s e body l s1 x s2 : eval t r s e (RVals [VFalse]) s1 -> cond_rule r s1 l x s2 -> cond_rule r s ((Some e, body) :: l) x s2
| CondErr s e body l y s1 : eval t r s e (RErr y) s1 -> cond_rule r s ((Some e, body) :: l) (RErr y) s1.
(** when and unless: [want] says whether the body runs on true. *)
Inductive when_rule (want : bool) (r : lenv) : store -> expr -> list expr -> res -> store -> Prop :=
| WhenRun s e body v s1 x s2 : eval t r s e (RVals [v]) s1 -> (if want then v <> VFalse else v = VFalse) -> evseq t r s1 body x s2 -> when_rule want r s e body x s2
| WhenSkip s e body v s1 x s2 : eval t r s e (RVals [v]) s1 -> (if want then v = VFalse else v <> VFalse) -> eval t r s1 void_call x s2 -> when_rule want r s e body x s2
| WhenErr s e body y s1 : eval t r s e (RErr y) s1 -> when_rule want r s e body (RErr y) s1.
(** let: the expressions from left to right, then the body with new variables. *)
Inductive let_rule (r : lenv) (s : store) (xs : list ident) (es body : list expr) : res -> store -> Prop :=
| LetRun vs s1 x s2 : evargs t r s es (inl vs) s1 ->
    evseq t (bind_env xs (List.length (cells_of s1)) r) (add_cells vs s1) body x s2 -> let_rule r s xs es body x s2
| LetErr y s1 : evargs t r s es (inr y) s1 -> let_rule r s xs es body (RErr y) s1.
(** let*: one variable at a time. *)
Inductive let_star_rule : lenv -> store -> list ident -> list expr -> list expr -> res -> store -> Prop :=
| LsBody r s body x s1 : evseq t r s body x s1 -> let_star_rule r s [] [] body x s1
| LsNext r s y ys e es body v s1 x s2 : eval1 t r s e (inl v) s1 ->
    let_star_rule ((y, List.length (cells_of s1)) :: r) (add_cells [v] s1) ys es body x s2 -> let_star_rule r s (y :: ys) (e :: es) body x s2
| LsErr r s y ys e es body z s1 : eval1 t r s e (inr z) s1 -> let_star_rule r s (y :: ys) (e :: es) body (RErr z) s1.
(** letrec: all variables first, without a value; then each expression is
    evaluated and stored. *)
Inductive inits (r : lenv) : store -> nat -> list expr -> option err -> store -> Prop :=
| InDone s k : inits r s k [] None s
| InNext s k e es v s1 o s2 : eval1 t r s e (inl v) s1 -> inits r (set_cell k v s1) (S k) es o s2 -> inits r s k (e :: es) o s2
| InErr s k e es y s1 : eval1 t r s e (inr y) s1 -> inits r s k (e :: es) (Some y) s1.
Inductive letrec_rule (r : lenv) (s : store) (xs : list ident) (es body : list expr) : res -> store -> Prop :=
| LrRun s1 x s2 : let r1 := bind_env xs (List.length (cells_of s)) r in
    inits r1 (add_cells (repeat VUnbound (List.length xs)) s) (List.length (cells_of s)) es None s1 -> evseq t r1 s1 body x s2 -> letrec_rule r s xs es body x s2
| LrErr y s1 : let r1 := bind_env xs (List.length (cells_of s)) r in
    inits r1 (add_cells (repeat VUnbound (List.length xs)) s) (List.length (cells_of s)) es (Some y) s1 -> letrec_rule r s xs es body (RErr y) s1.
(** Named let: a procedure is made and called with the values of the expressions,
    which are evaluated where its name is already visible. *)
Inductive named_let_rule (r : lenv) (s : store) (p : ident) (xs : list ident) (es body : list expr) : res -> store -> Prop :=
| NlRun fv s1 vs s3 x s4 : let r1 := (p, List.length (cells_of s)) :: r in
    new_proc (PClo [(Formals xs None, body)] r1) (add_cells [VUnbound] s) = (fv, s1) ->
    evargs t r1 (set_cell (List.length (cells_of s)) fv s1) es (inl vs) s3 ->
    apply prim s3 fv vs x s4 -> named_let_rule r s p xs es body x s4
| NlErr fv s1 y s3 : let r1 := (p, List.length (cells_of s)) :: r in
    new_proc (PClo [(Formals xs None, body)] r1) (add_cells [VUnbound] s) = (fv, s1) ->
    evargs t r1 (set_cell (List.length (cells_of s)) fv s1) es (inr y) s3 -> named_let_rule r s p xs es body (RErr y) s3.
(** case: the value is compared with the data of each clause in order. *)
Definition equal_call (d : expr) : expr := EApp (EVar (Id "equal?")) [EVar (Id "tmp"); d].
Inductive case_test (r : lenv) : store -> list expr -> bool + err -> store -> Prop :=
| CtNone s : case_test r s [] (inl false) s
| CtHit s d l v s1 : eval t r s (equal_call d) (RVals [v]) s1 -> v <> VFalse -> case_test r s (d :: l) (inl true) s1
| CtMiss s d l s1 b s2 : eval t r s (equal_call d) (RVals [VFalse]) s1 -> case_test r s1 l b s2 -> case_test r s (d :: l) b s2
| CtErr s d l y s1 : eval t r s (equal_call d) (RErr y) s1 -> case_test r s (d :: l) (inr y) s1.
Inductive case_clauses_rule (r : lenv) : store -> list (list expr * list expr) -> list expr -> res -> store -> Prop :=
| CcElse s els x s1 : evseq t r s els x s1 -> case_clauses_rule r s [] els x s1
| CcHit s ds body l els s1 x s2 : case_test r s ds (inl true) s1 -> evseq t r s1 body x s2 -> case_clauses_rule r s ((ds, body) :: l) els x s2
| CcMiss s ds body l els s1 x s2 : case_test r s ds (inl false) s1 -> case_clauses_rule r s1 l els x s2 -> case_clauses_rule r s ((ds, body) :: l) els x s2
| CcErr s ds body l els y s1 : case_test r s ds (inr y) s1 -> case_clauses_rule r s ((ds, body) :: l) els (RErr y) s1.
Inductive case_rule (r : lenv) (s : store) (e : expr) (cls : list (list expr * list expr)) (els : list expr) : res -> store -> Prop :=
| CaseRun v s1 x s2 : eval1 t r s e (inl v) s1 ->
    case_clauses_rule ((Id "tmp", List.length (cells_of s1)) :: r) (add_cells [v] s1) cls els x s2 -> case_rule r s e cls els x s2
| CaseErr y s1 : eval1 t r s e (inr y) s1 -> case_rule r s e cls els (RErr y) s1.
End Rules.

(** ** Lemmas *)
Section Derived.
Variable evalx : obj -> option (list tr).
Variable lit : obj -> val.
Notation compiles := (compiles evalx lit).
Notation compiles_body := (compiles_body evalx lit).

(** A macro is in scope and its own scope adds nothing. *)
Definition provides (xf : xforms) (n : string) (fn : tr) : Prop :=
  exists sc, xassoc (s2b n) xf = Some (Xf fn sc) /\ merge xf sc = xf.
Definition unused (xf : xforms) (n : string) : Prop := xassoc (s2b n) xf = None.

Lemma macro_step xf rb n q fn e' c : provides xf n fn -> ~ In n all_keywords -> fn (OPair (sym n) q) = Some e' ->
  compiles xf rb e' c -> compiles xf rb (OPair (sym n) q) c.
Proof.
  intros [sc [X M]] K F [f [o' [E P]]]. exists (S f), o'. split; auto. rewrite expand_expr_S. cbv zeta.
  assert (N : forall k, In k all_keywords -> is_kw k (sym n) = false).
  { intros k I. apply is_kw_false. intros E'. apply sym_inj in E'. congruence. }
  rewrite !N by (unfold all_keywords, expr_keywords; simpl; tauto). cbn [self_eval orb]. cbn [lookup_xform sym CheckThm.sym]. unfold sym. cbn [lookup_xform]. rewrite X, <- M in *. 
  change (OPair (OSym (s2b n)) q) with (OPair (sym n) q). rewrite F. rewrite M. exact E.
Qed.
Lemma compiles_lit xf rb o : match o with OTrue | OFalse | OFix _ => True | _ => False end -> compiles xf rb o (EConst (lit o)).
Proof. intros H. exists 1, o. split; [destruct o; try contradiction; reflexivity|]. exists 1. destruct o; try contradiction; reflexivity. Qed.
Lemma compiles_quote xf rb d : compiles xf rb (olist [sym "quote"; d]) (EConst (lit d)).
Proof. exists 1, (olist [sym "quote"; d]). split; [reflexivity|]. exists 1. reflexivity. Qed.
Lemma compiles_var xf rb n : unused xf n -> compiles xf rb (sym n) (EVar (Id n)).
Proof.
  intros U. exists 1, (sym n). split; [simpl; unfold unused in U; rewrite U; reflexivity|]. exists 1. cbn. unfold s2b. rewrite string_of_list_ascii_of_string. reflexivity.
Qed.
Lemma compiles_if xf rb a b c ca cb cc : compiles xf rb a ca -> compiles xf rb b cb -> compiles xf rb c cc ->
  compiles xf rb (olist [sym "if"; a; b; c]) (EIf ca cb cc).
Proof.
  intros [f1 [a' [E1 [g1 P1]]]] [f2 [b' [E2 [g2 P2]]]] [f3 [c' [E3 [g3 P3]]]]. exists (S (f1 + f2 + f3)), (olist [sym "if"; a'; b'; c']). split.
  - rewrite olist_cons. rewrite expand_expr_S. cbv zeta. kwred. change (check_if_form (OPair (sym "if") (olist [a; b; c]))) with (Some (a, b, c)). cbv iota beta.
    rewrite (expand_le evalx f1 (f1 + f2 + f3) xf rb a a'), (expand_le evalx f2 (f1 + f2 + f3) xf rb b b'), (expand_le evalx f3 (f1 + f2 + f3) xf rb c c') by (auto; lia). reflexivity.
  - exists (S (g1 + g2 + g3)). remember (g1 + g2 + g3) as g. change (parse lit (S g) (olist [sym "if"; a'; b'; c'])) with
      (do x <- parse lit g a'; do y <- parse lit g b'; do z <- parse lit g c'; POk (EIf x y z)).
    rewrite (parse_mono _ g1 g _ _ P1), (parse_mono _ g2 g _ _ P2), (parse_mono _ g3 g _ _ P3) by lia. reflexivity.
Qed.
(** Names the compiler treats specially as operators. *)
Definition reserved : list string :=
  ["values"; "call-with-values"; "#%make-unbound"; "#%mv-call"; "#%mv-let"; "#%mv-values"]%string ++ all_keywords.
Lemma compiles_list xf rb os cs : Forall2 (compiles xf rb) os cs ->
  exists f os', mapx (expand_expr evalx f xf rb) os = XOk os' /\ parses lit os' cs.
Proof.
  induction 1 as [|o c os cs [f [o' [E [g P]]]] _ [f' [os' [E' P']]]]; [exists 0, []; split; [reflexivity|apply parses_nil]|].
  exists (f + f'), (o' :: os'). split; [|eapply parses_cons; eauto]. cbn [mapx]. rewrite (expand_le evalx f (f + f') xf rb o o') by (auto; lia). cbn [xbind].
  assert (X : forall l r, mapx (expand_expr evalx f' xf rb) l = XOk r -> mapx (expand_expr evalx (f + f') xf rb) l = XOk r).
  { induction l as [|b l IH]; simpl; auto. intros r H. destruct (expand_expr evalx f' xf rb b) as [v| |] eqn:V; try discriminate.
    rewrite (expand_le evalx f' (f + f') xf rb b v) by (auto; lia). simpl in *. destruct (mapx (expand_expr evalx f' xf rb) l) as [q| |]; try discriminate. rewrite (IH q eq_refl). auto. }
  rewrite (X _ _ E'). reflexivity.
Qed.
Lemma compiles_app xf rb n args cs : unused xf n -> ~ In n reserved -> Forall2 (compiles xf rb) args cs ->
  compiles xf rb (OPair (sym n) (olist args)) (EApp (EVar (Id n)) cs).
Proof.
  intros U R H. assert (Hd : Forall2 (compiles xf rb) (sym n :: args) (EVar (Id n) :: cs)) by (constructor; auto; apply compiles_var; auto).
  destruct (compiles_list _ _ _ _ Hd) as [f [os' [E P]]]. destruct os' as [|h os']; [destruct P as [g P]; discriminate P|].
  assert (N : forall k, In k reserved -> is_kw k (sym n) = false).
  { intros k I. apply is_kw_false. intros E'. apply sym_inj in E'. congruence. }
  assert (Eh : h = sym n).
  { cbn [mapx] in E. destruct (expand_expr evalx f xf rb (sym n)) as [v| |] eqn:V; try discriminate. cbn [xbind] in E. destruct (mapx _ args); try discriminate. injection E as <- _.
    destruct f; [discriminate|]. simpl in V. unfold unused in U. rewrite U in V. congruence. }
  subst h. exists (S f), (OPair (sym n) (olist os')). split.
  - rewrite expand_expr_S. cbv zeta. rewrite !N by (unfold reserved, all_keywords, expr_keywords; simpl; tauto). cbn [self_eval orb].
    cbn [lookup_xform CheckThm.sym]. change (lookup_xform (sym n) xf) with (xassoc (s2b n) xf). unfold unused in U. unfold sym at 1. cbn [lookup_xform]. rewrite U. change (OSym (s2b n)) with (sym n).
    rewrite <- olist_cons, to_olist, E. reflexivity.
  - destruct P as [g P]. cbn [olist ploop] in P. apply pbind_ok in P as [a [P1 P]]. apply pbind_ok in P as [q [P2 P]]. injection P as -> ->.
    exists (S g). cbn [parse]. rewrite !N by (unfold reserved, all_keywords, expr_keywords; simpl; tauto). cbn [orb]. rewrite P1. cbn [pbind]. rewrite P2. reflexivity.
Qed.
Lemma compiles_void xf rb : unused xf "void" -> compiles xf rb (olist [sym "void"]) void_call.
Proof.
  intros U. rewrite olist_cons. apply compiles_app; auto. unfold reserved, all_keywords, expr_keywords. simpl. intuition discriminate.
Qed.
(** let-values and letrec-values with one variable per binding *)
Definition one_each (xs : list ident) (cs : list expr) : list (list ident * expr) := combine (map (fun x => [x]) xs) cs.
Definition binding_obj (l : list (obj * obj)) : obj := olist (map (fun b => olist [olist [fst b]; snd b]) l).
Lemma compiles_let xf rb k vars vals xs cs os body : In k ["let-values"; "letrec-values"]%string ->
  Forall2 (fun i x => pident i = POk x) vars xs -> NoDup vars -> Forall2 (compiles xf rb) vals cs -> List.length vars = List.length vals ->
  compiles_body xf os body ->
  compiles xf rb (OPair (sym k) (OPair (binding_obj (combine vars vals)) (olist os))) ((if String.eqb k "let-values" then ELet else ELetrec) (one_each xs cs) body).
Proof.
  intros K V ND C LN [fb [os' [B PB]]].
  assert (SY : forall v, In v vars -> symbol v).
  { clear -V. induction V as [|i x vars xs E _ IH]; [intros v []|]. intros v [<-|I]; auto. destruct i; try discriminate E; [left|right]; eauto. }
  assert (NE : os <> []). { intros ->. destruct fb; discriminate B. }
  set (bs := map (fun b : obj * obj => ([fst b], snd b)) (combine vars vals)).
  assert (OB : binding_obj (combine vars vals) = obindings bs).
  { unfold binding_obj, obindings, bs. rewrite map_map. reflexivity. }
  assert (BB : forall x, bound_by bs x <-> In x vars).
  { intros x. unfold bound_by, bs. split.
    - intros [b [I J]]. apply in_map_iff in I as [[v e] [<- I]]. apply in_combine_l in I. simpl in J. destruct J as [<-|[]]. auto.
    - intros I. destruct (In_nth _ _ ONull I) as [i [L E]]. exists ([x], nth i vals ONull). split; [|left; auto]. apply in_map_iff. exists (x, nth i vals ONull). split; auto.
      rewrite <- E, <- combine_nth by auto. apply nth_In. rewrite combine_length. lia. }
  assert (CF : List.concat (map fst bs) = vars).
  { unfold bs. rewrite map_map. clear -LN. revert vals LN. induction vars as [|v vars IH]; intros [|e vals] L; simpl in *; try lia; auto. f_equal. apply IH. lia. }
  destruct (compiles_list _ _ _ _ C) as [f [vals' [E P]]].
  set (ds := combine (map (fun v => of_list [v]) vars) vals').
  assert (MX : forall n, f <= n -> mapx (fun b : list obj * obj => let! v := expand_expr evalx n xf rb (snd b) in XOk (of_list (fst b), v)) bs = XOk ds).
  { intros n L. unfold bs, ds. clear -E L LN. revert vals vals' E LN. induction vars as [|v vars IH]; intros [|e vals] vals' E LN; simpl in LN; try lia.
    - simpl in E. injection E as <-. reflexivity.
    - cbn [mapx] in E. destruct (expand_expr evalx f xf rb e) as [w| |] eqn:W; try discriminate. cbn [xbind] in E. destruct (mapx (expand_expr evalx f xf rb) vals) as [q| |] eqn:Q; try discriminate.
      cbn [xbind] in E. injection E as <-. cbn [combine map mapx snd fst]. rewrite (expand_le evalx f n xf rb e w L W). cbn [xbind]. rewrite (IH vals q Q) by lia. reflexivity. }
  assert (PD : Forall2 (pend lit) ds (one_each xs cs)).
  { apply parses_Forall2 in P. unfold ds, one_each. clear -V P. revert vals' cs P. induction V as [|i x vars xs E _ IH]; intros vals' cs P; [constructor|]. destruct P as [|o c vals' cs G P]; simpl; constructor.
    - exists [i]. split; [reflexivity|]. split; [constructor; auto|exact G].
    - apply IH. auto. }
  destruct (parse_let lit k ds (one_each xs cs) os' body K PD PB) as [g G].
  exists (S (f + fb)), (let_form (sym k) ds os'). split; eauto.
  rewrite OB. rewrite expand_expr_S. cbv zeta. rewrite check_let_ok; auto; [|intros x I; apply SY, BB; auto].
  rewrite dup_bindings_ok; [|intros x I; apply SY, BB; auto|rewrite CF; auto|intros x _ []]. rewrite MX by lia. cbn [xbind]. rewrite (body_le evalx fb (f + fb) xf os os') by (auto; lia).
  destruct K as [<-|[<-|[]]]; reflexivity.
Qed.
(** A body with one expression *)
Definition plain_code (c : expr) : Prop :=
  match c with EBegin _ | EDefine _ _ => False | EApp (EVar (Id n)) _ => n <> "define-syntaxes"%string | _ => True end.
Lemma plain_no_form g o c : parse lit g o = POk c -> plain_code c -> no_form o.
Proof.
  intros P N k K q E. subst o. destruct g as [|g]; [discriminate|]. simpl in K. destruct K as [<-|[<-|[<-|[]]]].
  - change (parse lit (S g) (OPair (sym "begin") q)) with (do es <- ploop (parse lit g) q; POk (EBegin es)) in P. apply pbind_ok in P as [es [_ P]]. injection P as <-. exact N.
  - change (parse lit (S g) (OPair (sym "define-syntaxes") q)) with (do x <- parse lit g (sym "define-syntaxes"); do es <- ploop (parse lit g) q; POk (EApp x es)) in P.
    apply pbind_ok in P as [x [P1 P]]. apply pbind_ok in P as [es [_ P]]. injection P as <-. destruct g as [|g]; [discriminate|]. injection P1 as <-. apply N. reflexivity.
  - change (parse lit (S g) (OPair (sym "define-values") q)) with (do i <- pcar q; do ids <- ploop pident i; do r <- pcdr q; do e <- pcar r; do x <- parse lit g e; POk (EDefine ids x)) in P.
    apply pbind_ok in P as [? [_ P]]. apply pbind_ok in P as [? [_ P]]. apply pbind_ok in P as [? [_ P]]. apply pbind_ok in P as [? [_ P]]. apply pbind_ok in P as [? [_ P]]. injection P as <-. exact N.
Qed.
Lemma compiles_body_one xf o c : compiles xf false o c -> plain_code c -> compiles_body xf [o] [c].
Proof.
  intros [f [o' [E [g P]]]] N. assert (I : items_all evalx lit xf [o] [IExpr c]).
  { change [IExpr c] with ([IExpr c] ++ []). apply IaCons; [|apply IaNil]. eapply ItExpr; [exists f; exact E| |exact P]. eapply plain_no_form; eauto. }
  apply (body_compiles evalx lit xf [o] [IExpr c] I). exists [], c; reflexivity.
Qed.
Lemma compiles_let0 xf rb os body : compiles_body xf os body -> compiles xf rb (OPair (sym "let-values") (OPair ONull (olist os))) (ELet [] body).
Proof. intros B. apply (compiles_let xf rb "let-values" [] [] [] [] os body); simpl; auto; constructor. Qed.

(** ** The code of the derived forms *)
Fixpoint and_code (cs : list expr) : expr :=
  match cs with [] => EConst (lit OTrue) | [c] => c | c :: l => EIf c (and_code l) (EConst (lit OFalse)) end.
Fixpoint or_code (cs : list expr) : expr :=
  match cs with
  | [] => EConst (lit OFalse)
  | [c] => c
  | c :: l => ELet [([Id "or-t"], c)] [EIf (EVar (Id "or-t")) (EVar (Id "or-t")) (or_code l)]
  end.
Fixpoint ls_code (xs : list ident) (cs body : list expr) : expr :=
  match xs, cs with
  | [x], [c] => ELet [([x], c)] body
  | x :: xr, c :: cr => ELet [([x], c)] [ls_code xr cr body]
  | _, _ => ELet [] body
  end.
Fixpoint test_code (ds : list expr) : expr :=
  match ds with [] => EConst (lit OFalse) | [d] => equal_call d | d :: l => EIf (equal_call d) (EConst (lit OTrue)) (test_code l) end.
Fixpoint cc_code (cls : list (list expr * list expr)) (els : list expr) : expr :=
  match cls with
  | [] => ELet [] els
  | (ds, b) :: l => EIf (test_code ds) (ELet [] b) (cc_code l els)
  end.

Lemma and_compiles xf rb os cs : provides xf "and" and_tr -> Forall2 (compiles xf rb) os cs -> compiles xf rb (form "and" os) (and_code cs).
Proof.
  intros PR H. assert (K : ~ In "and"%string all_keywords) by (unfold all_keywords, expr_keywords; simpl; intuition discriminate).
  induction H as [|o c os cs C H IH]; [eapply macro_step; eauto; [reflexivity|apply compiles_lit; exact Logic.I]|].
  unfold form. destruct H as [|o1 c1 os cs C1 H].
  - eapply macro_step; eauto. reflexivity.
  - eapply macro_step; eauto; [unfold and_tr; rewrite <- olist_cons, to_olist; reflexivity|]. change (and_code (c :: c1 :: cs)) with (EIf c (and_code (c1 :: cs)) (EConst (lit OFalse))).
    apply compiles_if; auto. apply compiles_lit. exact Logic.I.
Qed.
Lemma or_compiles xf : provides xf "or" or_tr -> unused xf "or-t" -> forall os cs rb,
  match os, cs with o :: os, c :: cs => compiles xf rb o c /\ Forall2 (compiles xf false) os cs | [], [] => True | _, _ => False end ->
  compiles xf rb (form "or" os) (or_code cs).
Proof.
  intros PR U. assert (K : ~ In "or"%string all_keywords) by (unfold all_keywords, expr_keywords; simpl; intuition discriminate).
  induction os as [|o os IH]; intros [|c cs] rb H; try contradiction; [eapply macro_step; eauto; [reflexivity|apply compiles_lit; exact Logic.I]|].
  destruct H as [C H]. unfold form. destruct H as [|o1 c1 os cs C1 H].
  - eapply macro_step; eauto. reflexivity.
  - eapply macro_step; eauto; [unfold or_tr; rewrite <- olist_cons, to_olist; reflexivity|].
    change (or_code (c :: c1 :: cs)) with (ELet [([Id "or-t"], c)] [EIf (EVar (Id "or-t")) (EVar (Id "or-t")) (or_code (c1 :: cs))]).
    apply (compiles_let xf rb "let-values" [sym "or-t"] [o] [Id "or-t"] [c] [olist [sym "if"; sym "or-t"; sym "or-t"; OPair (sym "or") (of_list (o1 :: os))]]); [left; auto| | | |auto|].
    + constructor; [reflexivity|constructor].
    + constructor; [intros []|constructor].
    + constructor; [auto|constructor].
    + apply compiles_body_one; [|exact Logic.I]. apply compiles_if; try (apply compiles_var; auto). apply IH. split; auto.
Qed.
(** A sequence of one expression is that expression; a longer one is a body. *)
Definition then_ok (xf : xforms) (rb : bool) (os : list obj) (cs : list expr) : Prop :=
  match os with [] => False | [o] => exists c, cs = [c] /\ compiles xf rb o c | _ => compiles_body xf os cs end.
Definition then_code (os : list obj) (cs : list expr) : expr := match os, cs with [_], [c] => c | _, _ => ELet [] cs end.
Lemma let_kw k : In k ["and"; "or"; "cond"; "when"; "unless"; "let"; "let*"; "letrec"; "case"; "case/else"; "case/test"]%string -> ~ In k all_keywords.
Proof. unfold all_keywords, expr_keywords. simpl. intuition (subst; discriminate). Qed.
Lemma let0_compiles xf rb os cs : provides xf "let" let_tr -> os <> [] -> compiles_body xf os cs -> compiles xf rb (OPair (sym "let") (OPair ONull (olist os))) (ELet [] cs).
Proof.
  intros PR NE B. destruct os as [|o os]; [congruence|]. eapply macro_step; [exact PR|apply let_kw; simpl; tauto| |apply compiles_let0; exact B].
  unfold let_tr. change (OPair (sym "let") (OPair ONull (olist (o :: os)))) with (olist (sym "let" :: ONull :: o :: os)). rewrite to_olist. reflexivity.
Qed.
Lemma then_compiles xf rb os cs : provides xf "let" let_tr -> then_ok xf rb os cs -> compiles xf rb (then_clause os) (then_code os cs).
Proof.
  intros PR H. destruct os as [|o [|o1 os]]; [contradiction| |].
  - destruct H as [c [-> C]]. exact C.
  - simpl in H. change (then_code (o :: o1 :: os) cs) with (ELet [] cs). apply let0_compiles; auto. discriminate.
Qed.
(** The clauses of cond *)
Inductive cond_ok (xf : xforms) (rb : bool) : list obj -> list (option expr * list expr) -> Prop :=
| CoNil : cond_ok xf rb [] []
| CoElse os cs : then_ok xf rb os cs -> cond_ok xf rb [form "else" os] [(None, cs)]
| CoTest test os c cs l cl : test <> sym "else" -> compiles xf rb test c -> then_ok xf rb os cs -> cond_ok xf rb l cl ->
    cond_ok xf rb (olist (test :: os) :: l) ((Some c, cs) :: cl).
Lemma cond_compiles xf rb l cl : provides xf "cond" cond_tr -> provides xf "let" let_tr -> unused xf "void" -> cond_ok xf rb l cl ->
  exists c, compiles xf rb (form "cond" l) c /\
    forall prim t r s x s', eval prim t r s c x s' <-> cond_rule prim t r s cl x s'.
Proof.
  intros PR PL U H.
  assert (TM : forall os cs prim t r s x s', then_ok xf rb os cs -> eval prim t r s (then_code os cs) x s' <-> evseq prim t r s cs x s').
  { intros os cs prim t r s x s' T. assert (A : add_cells [] s = s) by (destruct s; unfold add_cells; simpl; rewrite app_nil_r; auto).
    assert (G : eval prim t r s (ELet [] cs) x s' <-> evseq prim t r s cs x s').
    { split.
      - intros E. apply eval_let_inv in E as [[vs [s1 [B Q]]]|[y [_ B]]]; inversion B; subst. rewrite A in Q. exact Q.
      - intros E. eapply EvLet; [constructor|]. rewrite A. exact E. }
    destruct os as [|o [|o1 os]]; [contradiction| |exact G]. destruct T as [c [-> _]]. simpl. split; [apply EsLast|]. intros E. inversion E; subst; auto. }
  induction H as [|os cs T|test os c cs l cl NT C T H IH].
  - exists void_call. split.
    + eapply macro_step; eauto; [apply let_kw; simpl; tauto|reflexivity|apply compiles_void; auto].
    + intros. split; [apply CondNone|]. intros E. inversion E; subst; auto.
  - exists (then_code os cs). assert (NE : os <> []) by (destruct os; [contradiction|discriminate]). split.
    + eapply macro_step; eauto; [apply let_kw; simpl; tauto| |apply then_compiles; eauto].
      unfold cond_tr, form. rewrite <- olist_cons, to_olist. rewrite <- olist_cons, to_olist. destruct os; [congruence|reflexivity].
    + intros. rewrite TM by auto. split; [apply CondElse|]. intros E. inversion E; subst; auto.
  - destruct IH as [ce [CE M]]. exists (EIf c (then_code os cs) ce). assert (NE : os <> []) by (destruct os; [contradiction|discriminate]). split.
    + eapply macro_step; eauto; [apply let_kw; simpl; tauto| |apply compiles_if; [exact C|apply then_compiles; eauto|exact CE]].
      unfold cond_tr, form. rewrite <- olist_cons, to_olist, to_olist. rewrite (proj2 (is_kw_false _ _) NT). destruct os; [congruence|reflexivity].
    + intros. split; intros E.
      * inversion E; subst; [eapply CondTrue; eauto; apply (proj1 (TM os cs prim t r _ _ _ T)); auto|eapply CondFalse; eauto; apply M; auto|eapply CondErr; eauto].
      * inversion E; subst; [eapply EvIfTrue; eauto; apply (proj2 (TM os cs prim t r _ _ _ T)); auto|eapply EvIfFalse; eauto; apply M; auto|eapply EvIfErr; eauto].
Qed.
End Derived.
