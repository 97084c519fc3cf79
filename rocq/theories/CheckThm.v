(** C27: the syntax checker. *)
From Coq Require Import ZArith NArith Bool Ascii String List Arith Lia.
From Verif Require Import Base Heap Ast Check.
Import ListNotations.
Local Open Scope list_scope.

(** ** Specification: the grammar of core expressions *)
Fixpoint olist (l : list obj) : obj := match l with [] => ONull | x :: q => OPair x (olist q) end.
Definition sym (s : string) : obj := OSym (s2b s).
Definition symbol (o : obj) : Prop := (exists n, o = OSym n) \/ (exists n i, o = OGensym n i).
(** [(id ...)], [(id ... . id)] or [id] *)
Inductive parameters : obj -> Prop :=
| PmNull : parameters ONull
| PmRest x : symbol x -> parameters x
| PmCons x p : symbol x -> parameters p -> parameters (OPair x p).
Definition atom (o : obj) : Prop :=
  match o with OTrue | OFalse | OFix _ | OChar _ | OStr _ | OBox _ | OVec _ | OEmptyVec | OSym _ | OGensym _ _ => True | _ => False end.
Definition keywords : list string :=
  ["define-values"; "let-values"; "letrec-values"; "quote"; "quote-syntax"; "set!"; "if"; "lambda"; "case-lambda"; "begin"]%string.
Definition operator (o : obj) : Prop := forall k, In k keywords -> o <> sym k.
(** call-with-values has its two operands, and the operator is not one of the
    symbols the optimizer introduces for its own forms. *)
Definition well_headed (h : obj) (args : list obj) : Prop :=
  (h = sym "call-with-values" -> (2 <= List.length args)%nat) /\
  (h <> sym "#%mv-call" /\ h <> sym "#%mv-let").
(** [deep]: the operator of an application is a core expression and well headed;
    otherwise any operator that is not a keyword will do. *)
Inductive core (deep : bool) : obj -> Prop :=
| KAtom o : atom o -> core deep o
| KQuote k d : In k ["quote"; "quote-syntax"]%string -> core deep (olist [sym k; d])
| KIf a b c : core deep a -> core deep b -> core deep c -> core deep (olist [sym "if"; a; b; c])
| KSet x e : symbol x -> core deep e -> core deep (olist [sym "set!"; x; e])
| KDefine ids e : (forall x, In x ids -> symbol x) -> core deep e -> core deep (olist [sym "define-values"; olist ids; e])
| KLet k bs body :
    In k ["let-values"; "letrec-values"]%string ->
    (forall ids e, In (ids, e) bs -> (forall x, In x ids -> symbol x)) -> (forall b, In b bs -> core deep (snd b)) ->
    body <> [] -> (forall e, In e body -> core deep e) ->
    core deep (OPair (sym k) (OPair (olist (map (fun b => olist [olist (fst b); snd b]) bs)) (olist body)))
| KLambda p body : parameters p -> body <> [] -> (forall e, In e body -> core deep e) -> core deep (OPair (sym "lambda") (OPair p (olist body)))
| KCase cls :
    (forall c, In c cls -> parameters (fst c) /\ snd c <> []) -> (forall c, In c cls -> forall e, In e (snd c) -> core deep e) ->
    core deep (OPair (sym "case-lambda") (olist (map (fun c => OPair (fst c) (olist (snd c))) cls)))
| KBegin es : es <> [] -> (forall e, In e es -> core deep e) -> core deep (OPair (sym "begin") (olist es))
| KApp h args : operator h -> (deep = true -> well_headed h args) -> (deep = true -> core deep h) -> (forall e, In e args -> core deep e) -> core deep (OPair h (olist args)).

(** What the checker accepts: it returns without an error (and without undefined
    behaviour). *)
Definition accepts (o : obj) : Prop := exists f, check f o = COk.

(** ** Lemmas *)
Lemma is_kw_spec k o : is_kw k o = true <-> o = sym k.
Proof.
  unfold is_kw, sym. destruct o as [| | | | |nm| | | | | | | | | | | |]; try (split; discriminate). destruct (list_eq_dec ascii_dec nm (s2b k)); split; intros; try congruence; discriminate.
Qed.
Lemma is_kw_false k o : is_kw k o = false <-> o <> sym k.
Proof. rewrite <- is_kw_spec. destruct (is_kw k o); split; congruence. Qed.
Lemma symbolp_spec o : symbolp o = true <-> symbol o.
Proof.
  unfold symbol. split.
  - destruct o; simpl; try discriminate; eauto.
  - intros [[n ->]|[n [i ->]]]; reflexivity.
Qed.
Lemma ids_list_spec o : ids_list o = true <-> exists l, o = olist l /\ forall x, In x l -> symbol x.
Proof.
  split.
  - induction o; simpl; try discriminate; intros H.
    + exists []. split; auto. intros x [].
    + apply andb_true_iff in H. destruct H as [H1 H2]. destruct (IHo2 H2) as [l [-> L]]. exists (o1 :: l). split; auto.
      intros x [<-|I]; auto. apply symbolp_spec; auto.
  - intros [l [-> L]]. induction l as [|x l IH]; simpl; auto. rewrite (proj2 (symbolp_spec x)) by (apply L; left; auto).
    apply IH. intros y I. apply L. right. auto.
Qed.
Lemma params_spec o : params o = true <-> parameters o.
Proof.
  split.
  - induction o; simpl; try discriminate; intros H; try (apply PmRest, symbolp_spec; exact H).
    + apply PmNull.
    + apply andb_true_iff in H. destruct H as [H1 H2]. apply PmCons; auto. apply symbolp_spec; auto.
  - induction 1 as [|x S|x p S _ IH]; auto.
    + apply symbolp_spec in S. destruct x; simpl in *; auto; discriminate.
    + simpl. rewrite (proj2 (symbolp_spec x) S). exact IH.
Qed.
Lemma proper_spec o : proper o = true <-> exists l, o = olist l.
Proof.
  split.
  - induction o; simpl; try discriminate; intros H; [exists []; auto|]. destruct (IHo2 H) as [l ->]. exists (o1 :: l). auto.
  - intros [l ->]. induction l; auto.
Qed.
Lemma bindings_spec o : bindings o = true <->
  exists bs : list (list obj * obj), o = olist (map (fun b => olist [olist (fst b); snd b]) bs) /\ forall ids e, In (ids, e) bs -> forall x, In x ids -> symbol x.
Proof.
  split.
  - induction o; try discriminate; intros H; [exists []; split; [auto|intros ? ? []]|].
    destruct o1 as [| | | | | | | | | |ids r| | | | | | |]; try discriminate. destruct r as [| | | | | | | | | |e r| | | | | | |]; try discriminate.
    destruct r; try discriminate. cbn [bindings] in H. apply andb_true_iff in H. destruct H as [H1 H2].
    destruct (IHo2 H2) as [bs [-> B]]. apply ids_list_spec in H1. destruct H1 as [l [-> L]]. exists ((l, e) :: bs). split; auto.
    intros ids e' [E|I]; [injection E as <- <-; auto|eauto].
  - intros [bs [-> B]]. induction bs as [|[l e] bs IH]; auto. cbn [map olist fst snd bindings].
    rewrite (proj2 (ids_list_spec (olist l))); [|exists l; split; auto; apply (B l e); left; auto].
    apply IH. intros ids e' I. apply (B ids e'). right. auto.
Qed.

(** More fuel does not change the outcome. *)
Lemma cthen_ok a b : cthen a b = COk <-> a = COk /\ b = COk.
Proof. destruct a; simpl; (split; [intros H; try discriminate; auto|intros [H1 H2]; try discriminate; auto]). Qed.
Lemma cthen_fuel a b : cthen a b <> CFuel -> a <> CFuel /\ (a = COk -> b <> CFuel).
Proof. destruct a; simpl; split; congruence. Qed.
Section Mono.
  Variables g h : obj -> cres.
  Hypothesis G : forall o, g o <> CFuel -> h o = g o.
  Lemma cthen_mono a b c d : (a <> CFuel -> b = a) -> (c <> CFuel -> d = c) -> cthen a c <> CFuel -> cthen b d = cthen a c.
  Proof. intros A C N. destruct (cthen_fuel _ _ N) as [N1 N2]. rewrite (A N1). destruct a; simpl in *; auto. Qed.
  Lemma rhs_mono o : check_rhs g o <> CFuel -> check_rhs h o = check_rhs g o.
  Proof.
    induction o; auto. destruct o1 as [| | | | | | | | | |ids r| | | | | | |]; auto. destruct r; auto. simpl. apply cthen_mono; auto.
  Qed.
  Lemma seq_mono o : check_seq g o <> CFuel -> check_seq h o = check_seq g o.
  Proof. induction o; auto. destruct o2; auto; intros N; try (apply G; exact N); revert N; apply cthen_mono; auto. Qed.
  Lemma args_mono o : check_args g o <> CFuel -> check_args h o = check_args g o.
  Proof. induction o; auto. apply cthen_mono; auto. Qed.
  Lemma clauses_mono o : check_clauses g o <> CFuel -> check_clauses h o = check_clauses g o.
  Proof. induction o; auto. destruct o1; auto. simpl. destruct (params o1_1); auto. apply cthen_mono; auto. Qed.
End Mono.
Lemma check_mono_step f f1 : (forall o, check f o <> CFuel -> check f1 o = check f o) ->
  forall o, check (S f) o <> CFuel -> check (S f1) o = check (S f) o.
Proof.
  intros G o N. destruct o as [| | | | | | | | | |hd q| | | | | | |]; auto. cbn [check] in N |- *.
  destruct (is_kw "define-values" hd).
  { destruct q as [| | | | | | | | | |ids q| | | | | | |]; auto. destruct q as [| | | | | | | | | |e q| | | | | | |]; auto. destruct q; auto. destruct (ids_list ids); auto. }
  destruct (is_kw "let-values" hd || is_kw "letrec-values" hd).
  { destruct q as [| | | | | | | | | |bs q| | | | | | |]; auto. destruct q as [| | | | | | | | | |e q| | | | | | |]; auto. destruct (bindings bs); auto.
    revert N. apply cthen_mono; auto. apply rhs_mono; auto. }
  destruct (is_kw "quote" hd || is_kw "quote-syntax" hd); auto.
  destruct (is_kw "set!" hd).
  { destruct q as [| | | | | | | | | |x q| | | | | | |]; auto. destruct q as [| | | | | | | | | |e q| | | | | | |]; auto. destruct q; auto. destruct (symbolp x); auto. }
  destruct (is_kw "if" hd).
  { destruct q as [| | | | | | | | | |a q| | | | | | |]; auto. destruct q as [| | | | | | | | | |b q| | | | | | |]; auto.
    destruct q as [| | | | | | | | | |c q| | | | | | |]; auto. destruct q; auto. revert N. apply cthen_mono; auto. apply cthen_mono; auto. }
  destruct (is_kw "lambda" hd).
  { destruct q as [| | | | | | | | | |a q| | | | | | |]; auto. destruct (params a); auto. }
  destruct (is_kw "case-lambda" hd); [apply clauses_mono; auto|].
  destruct (is_kw "begin" hd); (destruct (proper q); auto); [apply seq_mono|apply args_mono]; auto.
Qed.
Lemma check_mono1 f : forall o, check f o <> CFuel -> check (S f) o = check f o.
Proof. induction f as [|f IH]; [intros o N; contradiction|]. apply check_mono_step. exact IH. Qed.
Lemma check_mono f g o : (f <= g)%nat -> check f o <> CFuel -> check g o = check f o.
Proof. induction 1 as [|g L IH]; auto. intros N. rewrite check_mono1; auto. rewrite IH; auto. Qed.

(** ** The checker always returns *)
Fixpoint size (o : obj) : nat :=
  match o with OPair a d => S (size a + size d) | _ => 1 end.
Lemma size_pos o : (1 <= size o)%nat. Proof. destruct o; simpl; lia. Qed.
Section Term.
  Variable g : obj -> cres.
  Lemma cthen_term a b : a <> CFuel -> b <> CFuel -> cthen a b <> CFuel. Proof. destruct a; simpl; auto. Qed.
  Lemma rhs_term o : (forall x, (size x < size o)%nat -> g x <> CFuel) -> check_rhs g o <> CFuel.
  Proof.
    induction o; intros G; try discriminate. destruct o1 as [| | | | | | | | | |ids r| | | | | | |]; try discriminate. destruct r; try discriminate.
    simpl. apply cthen_term; [apply G; simpl; lia|]. apply IHo2. intros x L. apply G. simpl. lia.
  Qed.
  Lemma seq_term o : (forall x, (size x < size o)%nat -> g x <> CFuel) -> check_seq g o <> CFuel.
  Proof.
    induction o; intros G; try discriminate.
    assert (A : g o1 <> CFuel) by (apply G; simpl; lia).
    assert (B : check_seq g o2 <> CFuel) by (apply IHo2; intros x L; apply G; simpl; lia).
    destruct o2; auto; apply cthen_term; auto.
  Qed.
  Lemma args_term o : (forall x, (size x < size o)%nat -> g x <> CFuel) -> check_args g o <> CFuel.
  Proof.
    induction o; intros G; try discriminate. simpl. apply cthen_term; [apply G; simpl; lia|]. apply IHo2. intros x L. apply G. simpl. lia.
  Qed.
  Lemma clauses_term o : (forall x, (size x <= size o)%nat -> g x <> CFuel) -> check_clauses g o <> CFuel.
  Proof.
    induction o; intros G; try discriminate. destruct o1 as [| | | | | | | | | |a b| | | | | | |]; try discriminate. simpl. destruct (params a); [|discriminate].
    apply cthen_term; [apply G; simpl; assert (X := size_pos a); lia|]. apply IHo2. intros x L. apply G. simpl. lia.
  Qed.
End Term.
Lemma check_term f : forall o, (size o <= f)%nat -> check f o <> CFuel.
Proof.
  induction f as [|f IH]; intros o L; [assert (X := size_pos o); lia|].
  destruct o as [| | | | | | | | | |hd q| | | | | | |]; try discriminate. cbn [size] in L. cbn [check]. assert (X := size_pos hd).
  destruct (is_kw "define-values" hd).
  { destruct q as [| | | | | | | | | |ids q| | | | | | |]; try discriminate. destruct q as [| | | | | | | | | |e q| | | | | | |]; try discriminate.
    destruct q; try discriminate. destruct (ids_list ids); try discriminate. apply IH. simpl in L. lia. }
  destruct (is_kw "let-values" hd || is_kw "letrec-values" hd).
  { destruct q as [| | | | | | | | | |bs q| | | | | | |]; try discriminate. destruct q as [| | | | | | | | | |e q| | | | | | |]; try discriminate.
    destruct (bindings bs); try discriminate. cbn [size] in L. apply cthen_term; [apply rhs_term; intros x Lx; apply IH; lia|].
    apply IH. assert (Y := size_pos bs). simpl. lia. }
  destruct (is_kw "quote" hd || is_kw "quote-syntax" hd).
  { destruct q as [| | | | | | | | | |x q| | | | | | |]; try discriminate. destruct q; discriminate. }
  destruct (is_kw "set!" hd).
  { destruct q as [| | | | | | | | | |x q| | | | | | |]; try discriminate. destruct q as [| | | | | | | | | |e q| | | | | | |]; try discriminate.
    destruct q; try discriminate. destruct (symbolp x); try discriminate. apply IH. simpl in L. lia. }
  destruct (is_kw "if" hd).
  { destruct q as [| | | | | | | | | |a q| | | | | | |]; try discriminate. destruct q as [| | | | | | | | | |b q| | | | | | |]; try discriminate.
    destruct q as [| | | | | | | | | |c q| | | | | | |]; try discriminate. destruct q; try discriminate. simpl in L.
    repeat apply cthen_term; apply IH; lia. }
  destruct (is_kw "lambda" hd).
  { destruct q as [| | | | | | | | | |a q| | | | | | |]; try discriminate. destruct (params a); try discriminate. apply IH. simpl in L |- *.
    assert (Y := size_pos a). lia. }
  destruct (is_kw "case-lambda" hd); [apply clauses_term; intros x Lx; apply IH; lia|].
  destruct (is_kw "begin" hd); (destruct (proper q); [|discriminate]); [apply seq_term|apply args_term]; intros x Lx; apply IH; lia.
Qed.
Theorem C27_checker_returns o : exists f, forall g, (f <= g)%nat -> check g o = check f o /\ check g o <> CFuel.
Proof.
  exists (size o). intros g L. rewrite (check_mono _ _ _ L); [|apply check_term; auto]. split; auto. apply check_term; auto.
Qed.

(** ** What the checker accepts is what the grammar derives *)
Lemma seq_ok g l : check_seq g (olist l) = COk <-> l <> [] /\ forall e, In e l -> g e = COk.
Proof.
  induction l as [|x l IH]; simpl.
  - split; [discriminate|intros [H _]; contradiction].
  - destruct l as [|y l].
    + simpl. split; [intros H; split; [discriminate|intros e [<-|[]]; auto]|intros [_ H]; apply H; auto].
    + change (match olist (y :: l) with ONull => g x | _ => cthen (g x) (check_seq g (olist (y :: l))) end) with (cthen (g x) (check_seq g (olist (y :: l)))).
      rewrite cthen_ok, IH. split.
      * intros [H1 [_ H2]]. split; [discriminate|]. intros e [<-|I]; auto.
      * intros [_ H]. split; [apply H; left; auto|]. split; [discriminate|]. intros e I. apply H. right. auto.
Qed.
Lemma args_ok g l : check_args g (olist l) = COk <-> forall e, In e l -> g e = COk.
Proof.
  induction l as [|x l IH]; simpl; [split; [intros _ e []|auto]|]. rewrite cthen_ok, IH. split.
  - intros [H1 H2] e [<-|I]; auto.
  - intros H. split; [apply H; auto|]. intros e I. apply H. auto.
Qed.
Lemma rhs_ok g (bs : list (list obj * obj)) : check_rhs g (olist (map (fun b => olist [olist (fst b); snd b]) bs)) = COk <-> forall b, In b bs -> g (snd b) = COk.
Proof.
  induction bs as [|[ids e] bs IH]; simpl; [split; [intros _ e []|auto]|]. rewrite cthen_ok, IH. split.
  - intros [H1 H2] b [<-|I]; auto.
  - intros H. split; [apply (H (ids, e)); auto|]. intros b I. apply H. auto.
Qed.
Lemma clauses_ok g o : check_clauses g o = COk <->
  exists cls : list (obj * obj), o = olist (map (fun c => OPair (fst c) (snd c)) cls) /\
    forall c, In c cls -> parameters (fst c) /\ g (OPair begin_sym (snd c)) = COk.
Proof.
  split.
  - induction o; simpl; try discriminate.
    + intros _. exists []. split; auto. intros c [].
    + destruct o1 as [| | | | | | | | | |a b| | | | | | |]; try discriminate. destruct (params a) eqn:P; [|discriminate]. rewrite cthen_ok. intros [H1 H2].
      destruct (IHo2 H2) as [cls [-> C]]. exists ((a, b) :: cls). split; auto. apply params_spec in P. intros c [<-|I]; auto.
  - intros [cls [-> C]]. induction cls as [|[a b] cls IH]; auto. destruct (C (a, b) (or_introl eq_refl)) as [P H]. simpl in P, H.
    cbn [map olist fst snd check_clauses]. rewrite (proj2 (params_spec a) P). apply cthen_ok. split; auto. apply IH. intros c I. apply C. right. auto.
Qed.
Lemma begin_ok f q : check (S f) (OPair begin_sym q) = COk <-> exists l, q = olist l /\ l <> [] /\ forall e, In e l -> check f e = COk.
Proof.
  cbn [check]. change (is_kw "define-values" begin_sym) with false. change (is_kw "let-values" begin_sym || is_kw "letrec-values" begin_sym) with false.
  change (is_kw "quote" begin_sym || is_kw "quote-syntax" begin_sym) with false. change (is_kw "set!" begin_sym) with false. change (is_kw "if" begin_sym) with false.
  change (is_kw "lambda" begin_sym) with false. change (is_kw "case-lambda" begin_sym) with false. change (is_kw "begin" begin_sym) with true. cbv iota.
  destruct (proper q) eqn:P.
  - apply proper_spec in P. destruct P as [l ->]. rewrite seq_ok. split; [intros [H1 H2]; eauto|]. intros [l' [E H]].
    assert (l = l'). { clear H. revert l' E. induction l as [|x l IH]; intros [|y l'] E; simpl in E; try discriminate; auto. injection E as -> E. f_equal. auto. }
    subst. auto.
  - split; [discriminate|]. intros [l [-> _]]. rewrite (proj2 (proper_spec (olist l))) in P by eauto. discriminate.
Qed.
Lemma begin_inv f q : check f (OPair begin_sym q) = COk -> exists l, q = olist l /\ l <> [] /\ forall e, In e l -> check f e = COk.
Proof.
  destruct f as [|f]; [discriminate|]. intros H. apply begin_ok in H. destruct H as [l [-> [N L]]]. exists l. split; auto. split; auto.
  intros e I. rewrite check_mono1; auto. rewrite L; auto. discriminate.
Qed.

Lemma check_sound f : forall o, check f o = COk -> core false o.
Proof.
  induction f as [|f IH]; intros o; [discriminate|]. destruct o as [| | | | | | | | | |hd q| | | | | | |]; try discriminate; try (intros _; apply KAtom; exact Logic.I).
  cbn [check].
  destruct (is_kw "define-values" hd) eqn:K1.
  { apply is_kw_spec in K1. subst. destruct q as [| | | | | | | | | |ids q| | | | | | |]; try discriminate. destruct q as [| | | | | | | | | |e q| | | | | | |]; try discriminate.
    destruct q; try discriminate. destruct (ids_list ids) eqn:I; try discriminate. intros H. apply ids_list_spec in I. destruct I as [l [-> L]].
    apply (KDefine false l e); auto. }
  destruct (is_kw "let-values" hd || is_kw "letrec-values" hd) eqn:K2.
  { destruct q as [| | | | | | | | | |bs q| | | | | | |]; try discriminate. destruct q as [| | | | | | | | | |e q| | | | | | |]; try discriminate.
    destruct (bindings bs) eqn:B; try discriminate. rewrite cthen_ok. intros [H1 H2]. apply bindings_spec in B. destruct B as [l [-> B]]. rewrite rhs_ok in H1.
    apply begin_inv in H2. destruct H2 as [body [E [N BD]]]. rewrite E. apply orb_true_iff in K2. rewrite !is_kw_spec in K2.
    assert (KK : exists k, hd = sym k /\ In k ["let-values"; "letrec-values"]%string) by (destruct K2 as [-> | ->]; eexists; (split; [reflexivity|simpl; auto])).
    destruct KK as [k [-> KI]]. apply KLet; auto. }
  destruct (is_kw "quote" hd || is_kw "quote-syntax" hd) eqn:K3.
  { destruct q as [| | | | | | | | | |x q| | | | | | |]; try discriminate. destruct q; try discriminate. intros _. apply orb_true_iff in K3. rewrite !is_kw_spec in K3.
    destruct K3 as [-> | ->]; [apply (KQuote false "quote")|apply (KQuote false "quote-syntax")]; simpl; auto. }
  destruct (is_kw "set!" hd) eqn:K4.
  { apply is_kw_spec in K4. subst. destruct q as [| | | | | | | | | |x q| | | | | | |]; try discriminate. destruct q as [| | | | | | | | | |e q| | | | | | |]; try discriminate.
    destruct q; try discriminate. destruct (symbolp x) eqn:S; try discriminate. intros H. apply symbolp_spec in S. apply (KSet false x e); auto. }
  destruct (is_kw "if" hd) eqn:K5.
  { apply is_kw_spec in K5. subst. destruct q as [| | | | | | | | | |a q| | | | | | |]; try discriminate. destruct q as [| | | | | | | | | |b q| | | | | | |]; try discriminate.
    destruct q as [| | | | | | | | | |c q| | | | | | |]; try discriminate. destruct q; try discriminate. rewrite !cthen_ok. intros [H1 [H2 H3]].
    apply (KIf false a b c); auto. }
  destruct (is_kw "lambda" hd) eqn:K6.
  { apply is_kw_spec in K6. subst. destruct q as [| | | | | | | | | |a q| | | | | | |]; try discriminate. destruct (params a) eqn:P; try discriminate.
    intros H. apply begin_inv in H. destruct H as [body [-> [N BD]]]. apply params_spec in P. apply KLambda; auto. }
  destruct (is_kw "case-lambda" hd) eqn:K7.
  { apply is_kw_spec in K7. subst. rewrite clauses_ok. intros [cls [-> C]].
    assert (X : exists cl : list (obj * list obj), cls = map (fun c => (fst c, olist (snd c))) cl /\
      forall c, In c cl -> parameters (fst c) /\ snd c <> [] /\ forall e, In e (snd c) -> check f e = COk).
    { clear - C. induction cls as [|[a b] cls IHc]; [exists []; split; auto; intros c []|].
      destruct IHc as [cl [-> L]]; [intros c I; apply C; right; auto|]. destruct (C (a, b) (or_introl eq_refl)) as [P H]. apply begin_inv in H.
      destruct H as [body [E [N B]]]. simpl in P, E. subst b. exists ((a, body) :: cl). split; auto. intros c [<-|I]; auto. }
    destruct X as [cl [-> L]]. rewrite map_map. apply (KCase false cl); [intros c I; destruct (L c I) as [? [? ?]]; auto|].
    intros c I e Ie. apply IH. apply (L c I); auto. }
  destruct (is_kw "begin" hd) eqn:K8.
  { apply is_kw_spec in K8. subst. destruct (proper q) eqn:P; try discriminate. apply proper_spec in P. destruct P as [l ->]. rewrite seq_ok. intros [N H]. apply KBegin; auto. }
  destruct (proper q) eqn:P; try discriminate. apply proper_spec in P. destruct P as [l ->]. rewrite args_ok. intros H. apply KApp; auto; try discriminate.
  apply orb_false_iff in K2. apply orb_false_iff in K3. destruct K2 as [K2 K2'], K3 as [K3 K3'].
  intros k I. simpl in I. repeat (destruct I as [<-|I]; [apply is_kw_false; assumption|]). destruct I.
Qed.

(** One fuel for finitely many expressions. *)
Lemma fuel_all (l : list obj) : (forall e, In e l -> exists f, check f e = COk) -> exists f, forall e, In e l -> check f e = COk.
Proof.
  induction l as [|x l IH]; intros H; [exists 0%nat; intros e []|]. destruct (H x (or_introl eq_refl)) as [f1 H1].
  destruct IH as [f2 H2]; [intros e I; apply H; right; auto|]. exists (Nat.max f1 f2). intros e [<-|I].
  - rewrite (check_mono f1); [auto|lia|congruence].
  - rewrite (check_mono f2); [auto|lia|rewrite H2; auto; discriminate].
Qed.
Lemma check_up f g o : check f o = COk -> (f <= g)%nat -> check g o = COk.
Proof. intros H L. rewrite (check_mono f g); auto. congruence. Qed.
Lemma check_complete o : core false o -> exists f, check f o = COk.
Proof.
  induction 1 as [o A|k d K|a b c _ [fa A] _ [fb B] _ [fc C]|x e Sy _ [f E]|ids e Sy _ [f E]|k bs body K Sy _ IHb N _ IHe|p body P N _ IH|cls C _ IH|es N _ IH|h args O _ _ _ _ IH].
  - exists 1%nat. destruct o; simpl in A; try contradiction; reflexivity.
  - exists 1%nat. destruct K as [<-|[<-|[]]]; reflexivity.
  - exists (S (Nat.max fa (Nat.max fb fc))). cbn -[Nat.max]. rewrite (check_up fa), (check_up fb), (check_up fc) by (auto; lia). reflexivity.
  - exists (S f). cbn. apply symbolp_spec in Sy. rewrite Sy. exact E.
  - exists (S f). cbn. rewrite (proj2 (ids_list_spec (olist ids))) by eauto. exact E.
  - destruct (fuel_all (map snd bs)) as [f1 F1].
    { intros e I. apply in_map_iff in I. destruct I as [b [<- I]]. auto. }
    destruct (fuel_all body IHe) as [f2 F2]. destruct body as [|e0 body]; [contradiction|].
    assert (R : check_rhs (check (S (Nat.max f1 f2))) (olist (map (fun b => olist [olist (fst b); snd b]) bs)) = COk).
    { apply rhs_ok. intros b I. apply (check_up f1); [|lia]. apply F1. apply in_map. auto. }
    assert (B : check (S (Nat.max f1 f2)) (OPair begin_sym (olist (e0 :: body))) = COk).
    { apply begin_ok. exists (e0 :: body). split; auto. split; [discriminate|]. intros e I. apply (check_up f2); [|lia]. apply F2. auto. }
    assert (BS : bindings (olist (map (fun b => olist [olist (fst b); snd b]) bs)) = true) by (apply bindings_spec; eauto).
    exists (S (S (Nat.max f1 f2))). remember (S (Nat.max f1 f2)) as g. clear Heqg.
    generalize dependent (olist (map (fun b : list obj * obj => olist [olist (fst b); snd b]) bs)). intros bb R BS.
    destruct K as [<-|[<-|[]]]; cbn; rewrite BS, R; exact B.
  - destruct (fuel_all body IH) as [f F].
    assert (B : check (S f) (OPair begin_sym (olist body)) = COk) by (apply begin_ok; eauto). exists (S (S f)). remember (S f) as g.
    cbn. rewrite (proj2 (params_spec p) P). exact B.
  - destruct (fuel_all (concat (map snd cls))) as [f F].
    { intros e I. apply in_concat in I. destruct I as [l [I1 I2]]. apply in_map_iff in I1. destruct I1 as [c [<- I1]]. eauto. }
    exists (S (S f)). remember (S f) as g. cbn. apply clauses_ok. exists (map (fun c => (fst c, olist (snd c))) cls). split; [rewrite map_map; reflexivity|].
    intros c I. apply in_map_iff in I. destruct I as [c0 [<- I]]. destruct (C c0 I) as [P N]. simpl. split; auto. subst g. apply begin_ok.
    exists (snd c0). split; auto. split; auto. intros e Ie. apply F. apply in_concat. exists (snd c0). split; auto. apply in_map. auto.
  - destruct (fuel_all es IH) as [f F]. exists (S f). apply begin_ok. eauto.
  - destruct (fuel_all args IH) as [f F]. exists (S f). cbn [check].
    assert (K : forall k, In k keywords -> is_kw k h = false) by (intros k I; apply is_kw_false, O, I).
    rewrite !K by (simpl; auto 20). simpl orb. cbv iota. rewrite (proj2 (proper_spec (olist args))) by eauto. apply args_ok. auto.
Qed.

(** The checker accepts exactly the core expressions; applications are accepted
    with any operator that is not a keyword. *)
Theorem C27_checker_accepts_core o : accepts o <-> core false o.
Proof. split; [intros [f H]; apply (check_sound f); auto|apply check_complete]. Qed.

(** ** What the compiler is promised

    The compiler takes apart what it is given without looking at it.  It finds
    every part where it expects it when operators are core expressions too, when
    call-with-values and the internal forms have their two or three parts. *)
Section Parse.
  Variable lit : obj -> val.
  Lemma pident_ok x : symbol x -> exists i, pident x = POk i.
  Proof. intros [[n ->]|[n [i ->]]]; simpl; eauto. Qed.
  Lemma pformals_ok p : parameters p -> exists fm, pformals p = POk fm.
  Proof.
    induction 1 as [|x Sy|x p Sy _ [fm IH]]; [eexists; reflexivity| |].
    - destruct Sy as [[n ->]|[n [i ->]]]; simpl; eauto.
    - destruct (pident_ok x Sy) as [i E]. simpl. rewrite E. simpl. rewrite IH. simpl. eauto.
  Qed.
  Lemma ploop_ok {A} (g : obj -> pres A) l : (forall x, In x l -> exists a, g x = POk a) -> exists r, ploop g (olist l) = POk r /\ List.length r = List.length l.
  Proof.
    induction l as [|x l IH]; intros H; [exists []; auto|]. destruct (H x (or_introl eq_refl)) as [a E].
    destruct IH as [r [R L]]; [intros y I; apply H; right; auto|]. simpl. rewrite E. simpl. rewrite R. simpl. exists (a :: r). simpl. auto.
  Qed.
  Lemma pbind_ok {A B} (r : pres A) (g : A -> pres B) b : pbind r g = POk b <-> exists a, r = POk a /\ g a = POk b.
  Proof. destruct r; simpl; split; try discriminate; try (intros [? [E _]]; discriminate); eauto. intros [x [E H]]. injection E as ->. auto. Qed.
  Lemma ploop_mono {A} (g h : obj -> pres A) l : (forall o, In o [l] -> True) -> (forall o a, g o = POk a -> h o = POk a) -> forall r, ploop g l = POk r -> ploop h l = POk r.
  Proof.
    intros _ G. induction l; simpl; auto. intros r H. rewrite !pbind_ok in H. destruct H as [a [E H]]. rewrite pbind_ok in H. destruct H as [q [E2 H]].
    rewrite (G _ _ E). simpl. rewrite (IHl2 _ E2). exact H.
  Qed.
  Ltac inv_do H :=
    match type of H with pbind _ _ = _ =>
      let a := fresh "a" in let E := fresh "E" in apply pbind_ok in H; destruct H as [a [E H]] end.
  Ltac mono_with G :=
    let H := fresh "H" in intros H; repeat (inv_do H);
    repeat match goal with
           | E : parse lit ?f ?o = POk ?a |- context [parse lit ?g ?o] => rewrite (G _ _ E)
           | E : ploop (parse lit ?f) ?o = POk ?a |- context [ploop (parse lit ?g) ?o] => rewrite (ploop_mono _ _ _ (fun _ _ => Logic.I) G _ E)
           | E : ?r = POk _ |- context [pbind ?r _] => rewrite E
           | _ => progress simpl
           end; auto.
  Lemma parse_mono1 f : forall o e, parse lit f o = POk e -> parse lit (S f) o = POk e.
  Proof.
    induction f as [|f IH]; intros o e; [discriminate|]. destruct o as [| | | | | | | | | |hd q| | | | | | |]; auto.
    remember (S f) as f1 eqn:Ef. assert (G : forall o e, parse lit f o = POk e -> parse lit f1 o = POk e) by (subst f1; exact IH).
    rewrite Ef at 1. clear Ef IH. cbn [parse].
    assert (B : forall c a,
      (do i <- pcar c; do ids <- ploop pident i; do q <- pcdr c; do e <- pcar q; do x <- parse lit f e; POk (ids, x)) = POk a ->
      (do i <- pcar c; do ids <- ploop pident i; do q <- pcdr c; do e <- pcar q; do x <- parse lit f1 e; POk (ids, x)) = POk a) by (intros c a; mono_with G).
    assert (C : forall c a,
      (do i <- pcar c; do fm <- pformals i; do b <- pcdr c; do es <- ploop (parse lit f) b; POk (fm, es)) = POk a ->
      (do i <- pcar c; do fm <- pformals i; do b <- pcdr c; do es <- ploop (parse lit f1) b; POk (fm, es)) = POk a) by (intros c a; mono_with G).
    destruct (is_kw "define-values" hd); [mono_with G|].
    destruct (is_kw "let-values" hd).
    { intros H. repeat (inv_do H). rewrite E. simpl. rewrite (ploop_mono _ _ _ (fun _ _ => Logic.I) B _ E0). simpl. rewrite E1. simpl.
      rewrite (ploop_mono _ _ _ (fun _ _ => Logic.I) G _ E2). exact H. }
    destruct (is_kw "letrec-values" hd).
    { intros H. repeat (inv_do H). rewrite E. simpl. rewrite (ploop_mono _ _ _ (fun _ _ => Logic.I) B _ E0). simpl. rewrite E1. simpl.
      rewrite (ploop_mono _ _ _ (fun _ _ => Logic.I) G _ E2). exact H. }
    destruct (is_kw "set!" hd); [mono_with G|]. destruct (is_kw "lambda" hd); [mono_with G|].
    destruct (is_kw "case-lambda" hd).
    { intros H. repeat (inv_do H). rewrite (ploop_mono _ _ _ (fun _ _ => Logic.I) C _ E). exact H. }
    destruct (is_kw "begin" hd); [mono_with G|]. destruct (is_kw "if" hd); [mono_with G|].
    destruct (is_kw "quote" hd || is_kw "quote-syntax" hd); [mono_with G|].
    destruct (is_kw "#%make-unbound" hd); auto. destruct (is_kw "values" hd); [mono_with G|]. destruct (is_kw "call-with-values" hd); [mono_with G|].
    destruct (is_kw "#%mv-call" hd); [mono_with G|]. destruct (is_kw "#%mv-let" hd); [mono_with G|]. destruct (is_kw "#%mv-values" hd); mono_with G.
  Qed.
  Lemma parse_mono f g o e : parse lit f o = POk e -> (f <= g)%nat -> parse lit g o = POk e.
  Proof. intros H L. induction L as [|g L IH]; auto. apply parse_mono1. exact IH. Qed.
  Lemma parse_all (l : list obj) : (forall e, In e l -> exists f x, parse lit f e = POk x) -> exists f, forall g, (f <= g)%nat -> forall e, In e l -> exists x, parse lit g e = POk x.
  Proof.
    induction l as [|x l IH]; intros H; [exists 0%nat; intros g _ e []|]. destruct (H x (or_introl eq_refl)) as [f1 [y H1]].
    destruct IH as [f2 H2]; [intros e I; apply H; right; auto|]. exists (Nat.max f1 f2). intros g L e [<-|I].
    - exists y. apply (parse_mono f1); auto. lia.
    - apply H2; auto. lia.
  Qed.
  Lemma binding_ok g (bs : list (list obj * obj)) :
    (forall ids e, In (ids, e) bs -> forall x, In x ids -> symbol x) -> (forall b, In b bs -> exists x, parse lit g (snd b) = POk x) ->
    exists r, ploop (fun b => do i <- pcar b; do ids <- ploop pident i; do q <- pcdr b; do e <- pcar q; do x <- parse lit g e; POk (ids, x))
      (olist (map (fun b => olist [olist (fst b); snd b]) bs)) = POk r.
  Proof.
    intros Sy P. edestruct (ploop_ok (fun b => do i <- pcar b; do ids <- ploop pident i; do q <- pcdr b; do e <- pcar q; do x <- parse lit g e; POk (ids, x))) as [r [R _]]; [|eauto].
    intros x I. apply in_map_iff in I. destruct I as [[ids e] [<- I]]. cbn [fst snd olist pcar pcdr pbind].
    destruct (ploop_ok pident ids) as [r [R _]]; [intros y Iy; apply pident_ok; eauto|]. rewrite R. cbn [pbind]. destruct (P _ I) as [y Y]. simpl in Y. rewrite Y. simpl. eauto.
  Qed.
  Lemma parse_core o : core true o -> exists f e, parse lit f o = POk e.
  Proof.
    induction 1 as [o A|k d K|a b c _ [fa [xa A]] _ [fb [xb B]] _ [fc [xc C]]|x e Sy _ [f [y E]]|ids e Sy _ [f [y E]]|k bs body K Sy _ IHb N _ IHe|p body P N _ IH|cls C _ IH|es N _ IH|h args O W _ IHh _ IH].
    - exists 1%nat. destruct o; simpl in A; try contradiction; simpl; eauto.
    - exists 1%nat. destruct K as [<-|[<-|[]]]; simpl; eauto.
    - exists (S (Nat.max fa (Nat.max fb fc))). eexists. cbn -[Nat.max]. rewrite (parse_mono fa _ _ _ A), (parse_mono fb _ _ _ B), (parse_mono fc _ _ _ C) by lia. reflexivity.
    - exists (S f). destruct (pident_ok x Sy) as [i I]. eexists. cbn. rewrite I. cbn. rewrite E. reflexivity.
    - exists (S f). destruct (ploop_ok pident ids) as [r [R _]]; [intros z I; apply pident_ok; auto|]. eexists. cbn. rewrite R. cbn. rewrite E. reflexivity.
    - destruct (parse_all (map snd bs)) as [f1 F1].
      { intros e I. apply in_map_iff in I. destruct I as [b [<- I]]. auto. }
      destruct (parse_all body IHe) as [f2 F2].
      destruct (binding_ok (Nat.max f1 f2) bs Sy) as [r R]; [intros b I; apply F1; [lia|apply in_map; auto]|].
      destruct (ploop_ok (parse lit (Nat.max f1 f2)) body) as [q [Q _]]; [intros e I; apply F2; auto; lia|].
      exists (S (Nat.max f1 f2)). generalize dependent (Nat.max f1 f2). intros g R Q.
      destruct K as [<-|[<-|[]]]; eexists; cbn -[olist]; rewrite R; cbn -[olist]; rewrite Q; reflexivity.
    - destruct (parse_all body IH) as [f F]. destruct (pformals_ok p P) as [fm FM].
      destruct (ploop_ok (parse lit f) body) as [q [Q _]]; [intros e I; apply F; auto|]. exists (S f). eexists. cbn. rewrite FM. cbn. rewrite Q. reflexivity.
    - destruct (parse_all (concat (map snd cls))) as [f F].
      { intros e I. apply in_concat in I. destruct I as [l [I1 I2]]. apply in_map_iff in I1. destruct I1 as [c [<- I1]]. eauto. }
      destruct (ploop_ok (fun c => do a <- pcar c; do fm <- pformals a; do b <- pcdr c; do es <- ploop (parse lit f) b; POk (fm, es))
        (map (fun c => OPair (fst c) (olist (snd c))) cls)) as [r [R _]].
      { intros x I. apply in_map_iff in I. destruct I as [c [<- I]]. cbn [pcar pcdr pbind]. destruct (pformals_ok _ (proj1 (C c I))) as [fm FM].
        destruct (ploop_ok (parse lit f) (snd c)) as [q [Q _]].
        { intros e Ie. apply F; auto. apply in_concat. exists (snd c). split; auto. apply in_map. auto. }
        rewrite FM. cbn [pbind]. rewrite Q. simpl. eauto. }
      exists (S f). eexists. cbn -[olist map]. rewrite R. reflexivity.
    - destruct (parse_all es IH) as [f F]. destruct (ploop_ok (parse lit f) es) as [q [Q _]]; [intros e I; apply F; auto|].
      exists (S f). eexists. cbn -[olist]. rewrite Q. reflexivity.
    - destruct (W eq_refl) as [W1 [W2 W3]]. destruct (IHh eq_refl) as [fh [eh EH]]. destruct (parse_all args IH) as [fa F].
      set (f := Nat.max fh fa). assert (EH' : parse lit f h = POk eh) by (apply (parse_mono fh); auto; unfold f; lia).
      assert (F' : forall e, In e args -> exists x, parse lit f e = POk x) by (intros e I; apply F; auto; unfold f; lia). clearbody f.
      destruct (ploop_ok (parse lit f) args F') as [q [Q _]].
      exists (S f). cbn [parse].
      assert (K : forall k, In k keywords -> is_kw k h = false) by (intros k I; apply is_kw_false, O, I).
      rewrite !K by (simpl; auto 20). cbv iota. simpl orb. cbv iota.
      destruct (is_kw "#%make-unbound" h); [eauto|]. destruct (is_kw "values" h); [rewrite Q; simpl; eauto|].
      destruct (is_kw "call-with-values" h) eqn:CV.
      { apply is_kw_spec in CV. specialize (W1 CV). destruct args as [|a [|b args]]; simpl in W1; try lia. cbn [olist pcar pcdr pbind].
        destruct (F' a) as [x X]; [left; auto|]. destruct (F' b) as [y Y]; [right; left; auto|]. rewrite X. cbn [pbind]. rewrite Y. simpl. eauto. }
      rewrite (proj2 (is_kw_false _ h) W2), (proj2 (is_kw_false _ h) W3).
      destruct (is_kw "#%mv-values" h); [rewrite Q; simpl; eauto|]. rewrite EH'. cbn [pbind]. rewrite Q. simpl. eauto.
  Qed.
End Parse.

(** An expression that is accepted, whose operators are accepted too, is taken
    apart by the compiler without looking into an object that is not a pair. *)
Theorem C27_accepted_parses_partial o : core true o -> accepts o /\ forall lit, exists f e, parse lit f o = POk e.
Proof.
  intros H. split; [|intros lit; apply parse_core; exact H]. apply C27_checker_accepts_core.
  induction H; try (constructor; auto; fail).
Qed.

(** The full statement -- every accepted expression is a core expression, and
    every other is rejected with an error -- is false of the code. *)
(** The operator of an application is not checked: [((if) 1)] is accepted and the
    compiler takes the car of the empty list. *)
Theorem C27_operator_unchecked_refuted :
  let o := olist [olist [sym "if"]; OFix 1] in
  accepts o /\ forall lit f, (2 <= f)%nat -> parse lit f o = PUndef.
Proof.
  split; [exists 2%nat; reflexivity|]. intros lit f L. destruct f as [|[|f]]; try lia. reflexivity.
Qed.
(** Accepted: [(call-with-values 1)], whose consumer the compiler looks for. *)
Theorem C27_call_with_values_refuted :
  let o := olist [sym "call-with-values"; OFix 1] in
  accepts o /\ forall lit f, (2 <= f)%nat -> parse lit f o = PUndef.
Proof. split; [exists 2%nat; reflexivity|]. intros lit f L. destruct f as [|[|f]]; try lia. reflexivity. Qed.
(** Accepted: [(#%mv-let 1 2)], an internal form of the optimizer. *)
Theorem C27_internal_form_refuted :
  let o := olist [sym "#%mv-let"; OFix 1; sym "x"] in
  accepts o /\ forall lit f, (2 <= f)%nat -> parse lit f o = PUndef.
Proof. split; [exists 2%nat; reflexivity|]. intros lit f L. destruct f as [|[|f]]; try lia. reflexivity. Qed.
(** The checker itself takes the car or cdr of an object that is not a pair on
    some expressions that it should reject: bodies without expressions, [(begin)],
    [(lambda)], and clauses that are not pairs. *)
Theorem C27_checker_undefined_refuted o :
  In o [olist [sym "begin"]; olist [sym "lambda"]; olist [sym "lambda"; sym "x"]; olist [sym "case-lambda"; OFix 5]; olist [sym "case-lambda"; olist [ONull]]] ->
  forall f, (2 <= f)%nat -> check f o = CUndef.
Proof. intros I f L. destruct f as [|[|f]]; try lia. simpl in I. repeat (destruct I as [<-|I]; [reflexivity|]). destruct I. Qed.

(** Everything the checker does with an expression that is not a core expression:
    an error or, as above, undefined behaviour; it never accepts it. *)
Theorem C27_rejects_others o : ~ core false o -> exists f, forall g, (f <= g)%nat -> check g o = CBad \/ check g o = CUndef.
Proof.
  intros N. exists (size o). intros g L. assert (T : check g o <> CFuel) by (destruct (C27_checker_returns o) as [f F]; rewrite (check_mono _ _ _ L); apply check_term; auto).
  destruct (check g o) eqn:E; auto; [|contradiction]. exfalso. apply N. apply (check_sound g). exact E.
Qed.

(** ** Examples *)
(** (let-values ([(f . ()) (lambda (x . r) (if x r '()))] [(a b) (values 1 2)])
      (set! a (f a b)) ((case-lambda [() b] [(x) (begin a x)]) 'q)) *)
Definition program : obj :=
  olist [sym "let-values";
    olist [olist [olist [sym "f"]; olist [sym "lambda"; OPair (sym "x") (sym "r"); olist [sym "if"; sym "x"; sym "r"; olist [sym "quote"; ONull]]]];
           olist [olist [sym "a"; sym "b"]; olist [sym "values"; OFix 1; OFix 2]]];
    olist [sym "set!"; sym "a"; olist [sym "f"; sym "a"; sym "b"]];
    olist [olist [sym "case-lambda"; olist [ONull; sym "b"]; olist [olist [sym "x"]; olist [sym "begin"; sym "a"; sym "x"]]]; olist [sym "quote"; sym "q"]]].
Example C27_accepts_ex : accepts program. Proof. exists 20%nat. vm_compute. reflexivity. Qed.
Example C27_core_ex : core false program. Proof. apply C27_checker_accepts_core, C27_accepts_ex. Qed.
Example C27_rejects_ex : forall o, In o [olist [sym "if"; OTrue; OTrue]; olist [sym "set!"; OFix 1; OFix 2]; OPair (sym "f") (OFix 1);
    olist [sym "quote"]; olist [sym "lambda"; olist [OFix 1]; OFix 2]; olist [sym "let-values"; olist [olist [sym "x"; OFix 1]]; sym "x"]; ONull] ->
  check 20 o = CBad.
Proof. intros o I. simpl in I. repeat (destruct I as [<-|I]; [reflexivity|]). destruct I. Qed.
Lemma symbol_sym k : symbol (sym k). Proof. left. eexists. reflexivity. Qed.
(** ((lambda (x . r) (if x r '())) (call-with-values f g)) *)
Definition program2 : obj :=
  olist [olist [sym "lambda"; OPair (sym "x") (sym "r"); olist [sym "if"; sym "x"; sym "r"; olist [sym "quote"; ONull]]];
         olist [sym "call-with-values"; sym "f"; sym "g"]].
Example C27_core_true_ex : core true program2.
Proof.
  assert (A : forall k, core true (sym k)) by (intros k; apply KAtom; exact Logic.I).
  apply (KApp true _ [_]).
  - intros k I E. simpl in I. repeat (destruct I as [<-|I]; [discriminate E|]). destruct I.
  - intros _. split; [|split]; discriminate.
  - intros _. apply (KLambda true _ [_]); [apply PmCons; [|apply PmRest]; apply symbol_sym|discriminate|]. intros e [<-|[]].
    apply (KIf true); auto. apply (KQuote true "quote"). simpl. auto.
  - intros e [<-|[]]. apply (KApp true _ [_; _]); auto.
    + intros k I E. simpl in I. repeat (destruct I as [<-|I]; [discriminate E|]). destruct I.
    + intros _. split; [simpl; lia|]. split; discriminate.
    + intros e [<-|[<-|[]]]; auto.
Qed.

Print Assumptions C27_checker_returns.
Print Assumptions C27_checker_accepts_core.
Print Assumptions C27_accepted_parses_partial.
Print Assumptions C27_operator_unchecked_refuted.
Print Assumptions C27_call_with_values_refuted.
Print Assumptions C27_internal_form_refuted.
Print Assumptions C27_checker_undefined_refuted.
Print Assumptions C27_rejects_others.
