(** Specification and lemmas for C55: the expander and its check for unknown
    variables. *)
From Coq Require Import ZArith NArith Bool Ascii String List Arith Lia.
From Verif Require Import Base Heap Ast Check Expand CheckThm.
Import ListNotations.
Local Open Scope list_scope.

(** ** Specification

    The variables bound by formals [(x ... . y)]. *)
Inductive binds : obj -> obj -> Prop :=
| BdRest x : symbol x -> binds x x
| BdHere x p : binds (OPair x p) x
| BdLater x y p : binds p x -> binds (OPair y p) x.
(** Formals; [strict]: every element is a symbol. *)
Inductive formal_list (strict : bool) : obj -> Prop :=
| FlNull : formal_list strict ONull
| FlRest x : symbol x -> formal_list strict x
| FlCons x p : (strict = true -> symbol x) -> formal_list strict p -> formal_list strict (OPair x p).

Definition expr_keywords : list string :=
  ["lambda"; "case-lambda"; "let-values"; "letrec-values"; "set!"; "if"; "begin"; "quote"; "quote-syntax"]%string.
Definition plain_operator (o : obj) : Prop := forall k, In k expr_keywords -> o <> sym k.
(** The written form of bindings [((ids e) ...)] and clauses. *)
Definition obindings (bs : list (list obj * obj)) : obj := olist (map (fun b => olist [olist (fst b); snd b]) bs).
Definition oclauses (cls : list (obj * list obj)) : obj := olist (map (fun c => OPair (fst c) (olist (snd c))) cls).
Definition bound_by (bs : list (list obj * obj)) (x : obj) : Prop := exists b, In b bs /\ In x (fst b).

(** Fully expanded expressions; [strict]: everything bound is a symbol. *)
Inductive cexpr (strict : bool) : obj -> Prop :=
| XAtom o : atom o -> cexpr strict o
| XQuote k d : In k ["quote"; "quote-syntax"]%string -> cexpr strict (olist [sym k; d])
| XIf a b c : cexpr strict a -> cexpr strict b -> cexpr strict c -> cexpr strict (olist [sym "if"; a; b; c])
| XSet y e : symbol y -> cexpr strict e -> cexpr strict (olist [sym "set!"; y; e])
| XLet k bs body : In k ["let-values"; "letrec-values"]%string ->
    (strict = true -> forall x, bound_by bs x -> symbol x) ->
    (forall b, In b bs -> cexpr strict (snd b)) -> body <> [] -> (forall e, In e body -> cexpr strict e) ->
    cexpr strict (OPair (sym k) (OPair (obindings bs) (olist body)))
| XLambda fm body : formal_list strict fm -> body <> [] -> (forall e, In e body -> cexpr strict e) ->
    cexpr strict (OPair (sym "lambda") (OPair fm (olist body)))
| XCase cls : (forall c, In c cls -> formal_list strict (fst c) /\ snd c <> []) ->
    (forall c, In c cls -> forall e, In e (snd c) -> cexpr strict e) ->
    cexpr strict (OPair (sym "case-lambda") (oclauses cls))
| XBegin es : es <> [] -> (forall e, In e es -> cexpr strict e) -> cexpr strict (OPair (sym "begin") (olist es))
| XApp h args : plain_operator h -> cexpr strict h -> (forall e, In e args -> cexpr strict e) ->
    cexpr strict (OPair h (olist args)).

(** [reads e x]: the variable [x] occurs free in [e], other than as the target of
    an assignment. *)
Inductive reads : obj -> obj -> Prop :=
| RdVar x : symbol x -> reads x x
| RdIf a b c e x : In e [a; b; c] -> reads e x -> reads (olist [sym "if"; a; b; c]) x
| RdBegin es e x : In e es -> reads e x -> reads (OPair (sym "begin") (olist es)) x
| RdSet y e x : reads e x -> reads (olist [sym "set!"; y; e]) x
| RdLambda fm body e x : In e body -> reads e x -> ~ binds fm x -> reads (OPair (sym "lambda") (OPair fm (olist body))) x
| RdCase cls c e x : In c cls -> In e (snd c) -> reads e x -> ~ binds (fst c) x ->
    reads (OPair (sym "case-lambda") (oclauses cls)) x
| RdLet bs body b x : In b bs -> reads (snd b) x ->
    reads (OPair (sym "let-values") (OPair (obindings bs) (olist body))) x
| RdLetrec bs body b x : In b bs -> reads (snd b) x -> ~ bound_by bs x ->
    reads (OPair (sym "letrec-values") (OPair (obindings bs) (olist body))) x
| RdBody k bs body e x : In k ["let-values"; "letrec-values"]%string -> In e body -> reads e x -> ~ bound_by bs x ->
    reads (OPair (sym k) (OPair (obindings bs) (olist body))) x
| RdApp h args e x : plain_operator h -> In e (h :: args) -> reads e x -> reads (OPair h (olist args)) x.

(** Top-level forms of an expanded module. *)
Inductive mform (strict : bool) : obj -> Prop :=
| MDefine ids e : (forall x, In x ids -> symbol x) -> cexpr strict e -> mform strict (olist [sym "define-values"; olist ids; e])
| MExpr e : cexpr strict e -> ~ (exists q, e = OPair (sym "define-values") q) -> mform strict e.
Definition defines (es : list obj) (x : obj) : Prop :=
  exists ids e, In (olist [sym "define-values"; olist ids; e]) es /\ In x ids.
Inductive mreads : obj -> obj -> Prop :=
| MrDefine ids e x : reads e x -> mreads (olist [sym "define-values"; olist ids; e]) x
| MrExpr e x : reads e x -> ~ (exists q, e = OPair (sym "define-values") q) -> mreads e x.

(** ** Lists *)
Lemma of_list_olist l : of_list l = olist l. Proof. reflexivity. Qed.
Lemma to_list_spec o l : to_list o = Some l <-> o = olist l.
Proof.
  split.
  - revert l. induction o; intros m H; try discriminate; simpl in H.
    + injection H as <-. auto.
    + destruct (to_list o2) as [q|]; [|discriminate]. injection H as <-. simpl. f_equal. auto.
  - intros ->. induction l as [|x l IH]; simpl; auto. rewrite IH. auto.
Qed.
Lemma to_olist l : to_list (olist l) = Some l. Proof. apply to_list_spec. auto. Qed.
Lemma olist_inj l m : olist l = olist m -> l = m.
Proof. intros E. assert (X := to_olist l). rewrite E, to_olist in X. congruence. Qed.
Lemma obj_sym_dec_spec a b : symbol a -> (obj_sym_dec a b = true <-> a = b).
Proof.
  intros [[n ->]|[n [i ->]]]; destruct b as [| | | | |m|m j| | | | | | | | | | |]; simpl; try (split; [discriminate|congruence]).
  - destruct (name_dec n m); split; congruence.
  - destruct (name_dec n m) as [->|D]; [|split; congruence]. rewrite N.eqb_eq. split; congruence.
Qed.
Lemma in_scope_spec x sc : symbol x -> (in_scope x sc = true <-> In x sc).
Proof.
  intros S. unfold in_scope. rewrite existsb_exists. split.
  - intros [y [I E]]. apply obj_sym_dec_spec in E; auto. subst. auto.
  - intros I. exists x. split; auto. apply obj_sym_dec_spec; auto.
Qed.
Lemma is_kw_sym k j : is_kw k (sym j) = true <-> k = j.
Proof.
  rewrite is_kw_spec. unfold sym. split; [|intros ->; auto].
  intros E. injection E as E. assert (X : string_of_list_ascii (s2b j) = string_of_list_ascii (s2b k)) by congruence.
  unfold s2b in X. rewrite !string_of_list_ascii_of_string in X. auto.
Qed.
Lemma formals_names_spec fm ns : formals_names fm = Some ns -> forall x, In x ns <-> binds fm x.
Proof.
  revert ns. induction fm; intros ns H x; try discriminate; simpl in H.
  - injection H as <-. split; [intros []|]. inversion 1; subst. destruct H0 as [[? E]|[? [? E]]]; discriminate.
  - injection H as <-. split; [intros [<-|[]]; constructor; left; eauto|]. inversion 1; subst; left; auto.
  - injection H as <-. split; [intros [<-|[]]; constructor; right; eauto|]. inversion 1; subst; left; auto.
  - destruct (formals_names fm2) as [l|]; [|discriminate]. injection H as <-. specialize (IHfm2 _ eq_refl x). split.
    + intros [<-|I]; [constructor|]. constructor. apply IHfm2. auto.
    + intros B. inversion B as [y S|y q|y z q B']; subst; [apply symbolp_spec in S; discriminate|left; auto|right; apply IHfm2; auto].
Qed.
Lemma formals_names_some strict fm : formal_list strict fm -> exists ns, formals_names fm = Some ns.
Proof.
  induction 1 as [|x S|x p S _ [ns E]]; [eexists; reflexivity| |].
  - destruct S as [[n ->]|[n [i ->]]]; eexists; reflexivity.
  - simpl. rewrite E. eauto.
Qed.
Lemma formals_names_list fm ns : formals_names fm = Some ns -> formal_list false fm.
Proof.
  revert ns. induction fm; intros ns H; try discriminate; simpl in H.
  - constructor.
  - apply FlRest. left. eauto.
  - apply FlRest. right. eauto.
  - destruct (formals_names fm2); [|discriminate]. apply FlCons; eauto; discriminate.
Qed.

(** ** The checker *)
Definition acc (sc : list obj) (e : obj) : Prop := exists f, check_var f sc e = XOk tt.

Lemma checkl_ok g l : checkl g l = XOk tt <-> forall e, In e l -> g e = XOk tt.
Proof.
  induction l as [|a l IH]; simpl; [split; auto; intros _ e []|].
  unfold xthen. destruct (g a) as [[]| |] eqn:E.
  - rewrite IH. split; [intros H e [<-|I]; auto|auto].
  - split; [discriminate|]. intros H. rewrite <- E. auto.
  - split; [discriminate|]. intros H. rewrite <- E. auto.
Qed.
Lemma xthen_ok a b : xthen a b = XOk tt <-> a = XOk tt /\ b = XOk tt.
Proof. destruct a as [[]| |]; simpl; (split; [intros H; try discriminate; auto|intros [H1 H2]; try discriminate; auto]). Qed.
Lemma forl_ok o k : forl o k = XOk tt <-> exists l, o = olist l /\ k l = XOk tt.
Proof.
  unfold forl. destruct (to_list o) as [l|] eqn:E.
  - apply to_list_spec in E. subst. split; [eauto|]. intros [m [E H]]. apply olist_inj in E. subst. auto.
  - split; [discriminate|]. intros [l [-> _]]. rewrite to_olist in E. discriminate.
Qed.
Lemma check_var_mono f : forall sc e, check_var f sc e = XOk tt -> check_var (S f) sc e = XOk tt.
Proof.
  induction f as [|f IH]; [discriminate|]. intros sc e H.
  destruct e as [| | | | | | | | | |h q| | | | | | |]; auto.
  remember (S f) as f1. rewrite Heqf1 in H. cbn [check_var] in H |- *.
  assert (L : forall sc l, checkl (check_var f sc) l = XOk tt -> checkl (check_var f1 sc) l = XOk tt).
  { intros sc' l K. rewrite checkl_ok in *. subst f1. auto. }
  assert (F : forall sc o, forl o (checkl (check_var f sc)) = XOk tt -> forl o (checkl (check_var f1 sc)) = XOk tt).
  { intros sc' o K. rewrite forl_ok in *. destruct K as [l [-> K]]. eauto. }
  destruct (is_kw "lambda" h).
  { destruct q as [| | | | | | | | | |fm body| | | | | | |]; auto. destruct (formals_names fm); auto. }
  destruct (is_kw "case-lambda" h).
  { rewrite forl_ok in *. destruct H as [l [-> K]]. exists l. split; auto. rewrite checkl_ok in *. intros c I. specialize (K c I).
    destruct c; auto. destruct (formals_names c1); auto. }
  destruct (is_kw "let-values" h || is_kw "letrec-values" h).
  { destruct q as [| | | | | | | | | |bs body| | | | | | |]; auto. destruct (to_list bs) as [l|]; auto. destruct (bindings_parts l) as [ps|]; auto.
    cbv zeta in *. rewrite xthen_ok in *. destruct H. auto. }
  destruct (is_kw "set!" h).
  { destruct (to_list q) as [[|y [|v r]]|]; subst f1; auto. }
  destruct (is_kw "if" h || is_kw "begin" h); auto.
  destruct (is_kw "quote" h || is_kw "quote-syntax" h); auto.
Qed.
Lemma check_var_le f g sc e : f <= g -> check_var f sc e = XOk tt -> check_var g sc e = XOk tt.
Proof. induction 1; auto. intros K. apply check_var_mono. auto. Qed.
Lemma acc_list sc l : (exists f, checkl (check_var f sc) l = XOk tt) <-> forall e, In e l -> acc sc e.
Proof.
  split.
  - intros [f H] e I. exists f. rewrite checkl_ok in H. auto.
  - induction l as [|a l IH]; intros H; [exists 0; auto|].
    destruct IH as [f F]; [intros e I; apply H; right; auto|]. destruct (H a (or_introl eq_refl)) as [g G].
    exists (f + g). rewrite checkl_ok in *. intros e [<-|I]; [eapply check_var_le; [|exact G]|eapply check_var_le; [|apply F, I]]; lia.
Qed.
Lemma bindings_parts_obindings bs : bindings_parts (map (fun b => olist [olist (fst b); snd b]) bs) = Some bs.
Proof.
  induction bs as [|[ids e] bs IH]; auto. cbn [map bindings_parts fst snd]. unfold binding_parts. rewrite to_olist, to_olist, IH. auto.
Qed.
Ltac kwt k := replace (is_kw k (sym k)) with true by (symmetry; apply is_kw_spec; reflexivity).
Lemma acc_lambda sc fm body ns : formals_names fm = Some ns ->
  acc sc (OPair (sym "lambda") (OPair fm (olist body))) <-> forall e, In e body -> acc (ns ++ sc) e.
Proof.
  intros E. rewrite <- acc_list. split.
  - intros [[|f] H]; [discriminate|]. cbn [check_var] in H. change (is_kw "lambda" (sym "lambda")) with true in H. cbv iota in H.
    rewrite E in H. rewrite forl_ok in H. destruct H as [l [L H]]. apply olist_inj in L. subst. eauto.
  - intros [f H]. exists (S f). cbn [check_var]. change (is_kw "lambda" (sym "lambda")) with true. cbv iota. rewrite E, forl_ok. eauto.
Qed.
Lemma acc_case sc cls : (forall c, In c cls -> exists ns, formals_names (fst c) = Some ns) ->
  acc sc (OPair (sym "case-lambda") (oclauses cls)) <->
  forall c ns, In c cls -> formals_names (fst c) = Some ns -> forall e, In e (snd c) -> acc (ns ++ sc) e.
Proof.
  intros W. split.
  - intros [[|f] H]; [discriminate|]. intros c ns I E e Ie. cbn [check_var] in H. change (is_kw "lambda" (sym "case-lambda")) with false in H.
    change (is_kw "case-lambda" (sym "case-lambda")) with true in H. cbv iota in H. rewrite forl_ok in H. destruct H as [l [L H]].
    unfold oclauses in L. apply olist_inj in L. subst l. rewrite checkl_ok in H.
    specialize (H (OPair (fst c) (olist (snd c))) (in_map (fun c => OPair (fst c) (olist (snd c))) _ _ I)). cbv iota beta in H. rewrite E, forl_ok in H.
    destruct H as [l [L H]]. apply olist_inj in L. subst l. rewrite checkl_ok in H. exists f. auto.
  - intros H.
    assert (X : exists f, forall c, In c cls -> exists ns, formals_names (fst c) = Some ns /\ forall e, In e (snd c) -> check_var f (ns ++ sc) e = XOk tt).
    { induction cls as [|c cls IH]; [exists 0; intros ? []|]. destruct IH as [f F].
      { intros c' I. apply W. right; auto. } { intros c' ns I. apply H. right; auto. }
      destruct (W c (or_introl eq_refl)) as [ns E]. assert (Y := H c ns (or_introl eq_refl) E). rewrite <- acc_list in Y. destruct Y as [g G].
      rewrite checkl_ok in G. exists (f + g). intros c' [<-|I].
      - exists ns. split; auto. intros e Ie. eapply check_var_le; [|apply G; auto]. lia.
      - destruct (F c' I) as [ns' [E' F']]. exists ns'. split; auto. intros e Ie. eapply check_var_le; [|apply F'; auto]. lia. }
    destruct X as [f X]. exists (S f). cbn [check_var]. change (is_kw "lambda" (sym "case-lambda")) with false.
    change (is_kw "case-lambda" (sym "case-lambda")) with true. cbv iota. rewrite forl_ok. eexists. split; [reflexivity|].
    rewrite checkl_ok. intros o I. apply in_map_iff in I as [c [<- I]]. destruct (X c I) as [ns [E F]]. cbv iota. rewrite E, forl_ok.
    eexists. split; [reflexivity|]. rewrite checkl_ok. auto.
Qed.
Lemma acc_let sc k bs body : In k ["let-values"; "letrec-values"]%string ->
  acc sc (OPair (sym k) (OPair (obindings bs) (olist body))) <->
  (forall b, In b bs -> acc (if is_kw "let-values" (sym k) then sc else List.concat (map fst bs) ++ sc) (snd b)) /\
  (forall e, In e body -> acc (List.concat (map fst bs) ++ sc) e).
Proof.
  intros K. set (rsc := if is_kw "let-values" (sym k) then sc else List.concat (map fst bs) ++ sc).
  assert (S : forall f, check_var (S f) sc (OPair (sym k) (OPair (obindings bs) (olist body))) =
    xthen (checkl (check_var f rsc) (map snd bs)) (forl (olist body) (checkl (check_var f (List.concat (map fst bs) ++ sc))))).
  { intros f. cbn [check_var]. unfold obindings. rewrite to_olist, bindings_parts_obindings.
    destruct K as [<-|[<-|[]]]; reflexivity. }
  split.
  - intros [[|f] H]; [discriminate|]. rewrite S, xthen_ok, forl_ok in H. destruct H as [H1 [l [L H2]]]. apply olist_inj in L. subst l.
    rewrite checkl_ok in H1, H2. split; intros; exists f; auto. apply H1, in_map; auto.
  - intros [H1 H2]. assert (X : forall e, In e (map snd bs) -> acc rsc e).
    { intros e I. apply in_map_iff in I as [b [<- I]]. auto. }
    rewrite <- acc_list in X, H2. destruct X as [f F], H2 as [g G]. exists (Datatypes.S (f + g)). rewrite S, xthen_ok, forl_ok.
    rewrite checkl_ok in F, G. split; [|eexists; split; [reflexivity|]]; rewrite checkl_ok; intros e I.
    + eapply check_var_le; [|apply F; auto]. lia.
    + eapply check_var_le; [|apply G; auto]. lia.
Qed.
Lemma acc_seq sc k es : In k ["if"; "begin"]%string ->
  acc sc (OPair (sym k) (olist es)) <-> forall e, In e es -> acc sc e.
Proof.
  intros K. assert (S : forall f, check_var (S f) sc (OPair (sym k) (olist es)) = forl (olist es) (checkl (check_var f sc))).
  { intros f. destruct K as [<-|[<-|[]]]; reflexivity. }
  rewrite <- acc_list. split.
  - intros [[|f] H]; [discriminate|]. rewrite S, forl_ok in H. destruct H as [l [L H]]. apply olist_inj in L. subst. eauto.
  - intros [f H]. exists (Datatypes.S f). rewrite S, forl_ok. eauto.
Qed.
Lemma acc_set sc y e : acc sc (olist [sym "set!"; y; e]) <-> acc sc e.
Proof.
  split.
  - intros [[|f] H]; [discriminate|]. exists f. exact H.
  - intros [f H]. exists (S f). exact H.
Qed.
Lemma plain_kw h k : plain_operator h -> In k expr_keywords -> is_kw k h = false.
Proof. intros P I. apply is_kw_false. auto. Qed.
Lemma acc_app sc h args : plain_operator h ->
  acc sc (OPair h (olist args)) <-> forall e, In e (h :: args) -> acc sc e.
Proof.
  intros P. assert (S : forall f, check_var (S f) sc (OPair h (olist args)) = forl (olist (h :: args)) (checkl (check_var f sc))).
  { intros f. cbn [check_var]. rewrite !(plain_kw h) by (auto; unfold expr_keywords; simpl; tauto). reflexivity. }
  rewrite <- acc_list. split.
  - intros [[|f] H]; [discriminate|]. rewrite S, forl_ok in H. destruct H as [l [L H]]. apply olist_inj in L. subst. eauto.
  - intros [f H]. exists (Datatypes.S f). rewrite S, forl_ok. eauto.
Qed.
Lemma bound_by_concat bs x : bound_by bs x <-> In x (List.concat (map fst bs)).
Proof.
  rewrite in_concat. unfold bound_by. split.
  - intros [b [I J]]. exists (fst b). split; auto. apply in_map; auto.
  - intros [l [I J]]. apply in_map_iff in I as [b [<- I]]. eauto.
Qed.
Lemma reads_symbol e x : reads e x -> symbol x.
Proof. induction 1; auto. Qed.
Lemma reads_in_dec x l : symbol x -> In x l \/ ~ In x l.
Proof.
  intros S. destruct (in_scope x l) eqn:E; [left; apply in_scope_spec in E; auto|right].
  intros I. apply in_scope_spec in I; auto. congruence.
Qed.
Definition ocar (o : obj) : obj := match o with OPair a _ => a | x => x end.
Definition ocdr (o : obj) : obj := match o with OPair _ d => d | x => x end.
Lemma sym_inj a b : sym a = sym b -> a = b.
Proof. intros E. apply is_kw_sym. apply is_kw_spec. auto. Qed.
Lemma symbol_pair a d : ~ symbol (OPair a d).
Proof. intros S. apply symbolp_spec in S. discriminate. Qed.
Lemma olist_cons a l : olist (a :: l) = OPair a (olist l). Proof. reflexivity. Qed.
Ltac kwin := unfold expr_keywords; simpl; tauto.
(** Cases of [R : reads (OPair h q) x]: the equations of heads and tails. *)
Ltac rdc R :=
  match type of R with reads ?o _ =>
    let o' := fresh "o" in let E := fresh "E" in let EH := fresh "EH" in let ET := fresh "ET" in
    remember o as o' eqn:E; destruct R as [z1 S1|a1 b1 c1 e1 z1 I1 R|es1 e1 z1 I1 R|y1 e1 z1 R|fm1 body1 e1 z1 I1 R N1|cls1 c1 e1 z1 Ic1 I1 R N1|bs1 body1 b1 z1 I1 R|bs1 body1 b1 z1 I1 R N1|k1 bs1 body1 e1 z1 K1 I1 R N1|h1 args1 e1 z1 P1 I1 R];
    rewrite ?olist_cons in E;
    [subst z1; exfalso; revert S1; apply symbol_pair
    |assert (EH := f_equal ocar E); assert (ET := f_equal ocdr E); cbn [ocar ocdr] in EH, ET; clear E ..]
  end;
  try match goal with EH : sym _ = sym _ |- _ => apply sym_inj in EH; try discriminate EH end;
  try match goal with K : In ?k _, EH : ?k = _%string |- _ => subst k; simpl in K; repeat destruct K as [K|K]; try discriminate K; try contradiction end;
  try match goal with P : plain_operator ?h, EH : ?h = sym ?k |- _ => exfalso; apply (P k); [kwin|exact EH] end.
Lemma reads_atom o x : atom o -> reads o x -> o = x.
Proof. intros A R. inversion R; subst; auto; simpl in A; contradiction. Qed.
Lemma reads_quote k d x : In k ["quote"; "quote-syntax"]%string -> ~ reads (olist [sym k; d]) x.
Proof. intros K R. rewrite olist_cons in R. destruct K as [<-|[<-|[]]]; rdc R. Qed.
Lemma reads_if a b c x : reads (olist [sym "if"; a; b; c]) x -> exists e, In e [a; b; c] /\ reads e x.
Proof. intros R. rewrite olist_cons in R. rdc R. change (olist [a1; b1; c1] = olist [a; b; c]) in ET. apply olist_inj in ET. rewrite <- ET. eauto. Qed.
Lemma reads_begin es x : reads (OPair (sym "begin") (olist es)) x -> exists e, In e es /\ reads e x.
Proof. intros R. rdc R. apply olist_inj in ET. subst. eauto. Qed.
Lemma reads_set y e x : reads (olist [sym "set!"; y; e]) x -> reads e x.
Proof. intros R. rewrite olist_cons in R. rdc R. change (olist [y1; e1] = olist [y; e]) in ET. apply olist_inj in ET. congruence. Qed.
Lemma reads_lambda fm body x : reads (OPair (sym "lambda") (OPair fm (olist body))) x ->
  exists e, In e body /\ reads e x /\ ~ binds fm x.
Proof. intros R. rdc R. injection ET as -> E. apply olist_inj in E. subst. eauto. Qed.
Lemma oclauses_inj a b : oclauses a = oclauses b -> a = b.
Proof.
  unfold oclauses. intros E. apply olist_inj in E. revert b E. induction a as [|[f l] a IH]; intros [|[g m] b] E; try discriminate; auto.
  cbn [map fst snd] in E. injection E as -> E1 E2. apply olist_inj in E1. f_equal; [congruence|auto].
Qed.
Lemma obindings_inj a b : obindings a = obindings b -> a = b.
Proof.
  unfold obindings. intros E. apply olist_inj in E. revert b E. induction a as [|[f l] a IH]; intros [|[g m] b] E; try discriminate; auto.
  cbn [map fst snd olist] in E. injection E as E0 -> E2. apply olist_inj in E0. f_equal; [congruence|auto].
Qed.
Lemma reads_case cls x : reads (OPair (sym "case-lambda") (oclauses cls)) x ->
  exists c e, In c cls /\ In e (snd c) /\ reads e x /\ ~ binds (fst c) x.
Proof. intros R. rdc R. apply oclauses_inj in ET. subst. eauto 6. Qed.
Lemma reads_let k bs body x : In k ["let-values"; "letrec-values"]%string ->
  reads (OPair (sym k) (OPair (obindings bs) (olist body))) x ->
  (exists b, In b bs /\ reads (snd b) x /\ (k = "letrec-values"%string -> ~ bound_by bs x)) \/
  (exists e, In e body /\ reads e x /\ ~ bound_by bs x).
Proof.
  intros K R. destruct K as [<-|[<-|[]]]; rdc R;
    injection ET as E1 E2; apply obindings_inj in E1; apply olist_inj in E2; subst; [left|right|left|right]; eauto;
    eexists; repeat split; eauto; discriminate.
Qed.
Lemma reads_app h args x : plain_operator h -> reads (OPair h (olist args)) x -> exists e, In e (h :: args) /\ reads e x.
Proof.
  intros P R. rdc R.
  all: try (exfalso; match goal with EH : sym ?k = _, P : plain_operator _ |- _ => apply (P k); [kwin|symmetry; exact EH] end).
  - exfalso. destruct K1 as [<-|[<-|[]]]; eapply P; try (symmetry; exact EH); kwin.
  - apply olist_inj in ET. subst. eauto.
Qed.
Lemma acc_atom sc o : atom o -> (acc sc o <-> (symbol o -> In o sc)).
Proof.
  intros A. unfold acc. destruct o as [| | | | |nm|nm gi| | | | | | | | | | |]; simpl in A; try contradiction.
  all: try (split; [intros _ S; apply symbolp_spec in S; discriminate|intros _; exists 1; reflexivity]).
  - split.
    + intros [[|f] H] S; [discriminate|]. cbn [check_var] in H. destruct (in_scope (OSym nm) sc) eqn:E; [|discriminate].
      apply in_scope_spec in E; auto.
    + intros H. exists 1. cbn [check_var]. assert (S : symbol (OSym nm)) by (left; eauto). rewrite (proj2 (in_scope_spec _ sc S)); auto.
  - split.
    + intros [[|f] H] S; [discriminate|]. cbn [check_var] in H. destruct (in_scope (OGensym nm gi) sc) eqn:E; [|discriminate].
      apply in_scope_spec in E; auto.
    + intros H. exists 1. cbn [check_var]. assert (S : symbol (OGensym nm gi)) by (right; eauto). rewrite (proj2 (in_scope_spec _ sc S)); auto.
Qed.
Lemma checker_iff strict e : cexpr strict e -> forall sc, acc sc e <-> forall x, reads e x -> In x sc.
Proof.
  induction 1 as [o A|k d K|a b c _ Ha _ Hb _ Hc|y e Sy _ He|k bs body K SB _ HB NE _ HE|fm body F NE _ HE|cls FC _ HE|es NE _ HE|h args P _ HH _ HA]; intros sc.
  - rewrite acc_atom by auto. split.
    + intros H x R. assert (E := reads_atom _ _ A R). subst x. apply H. eapply reads_symbol; eauto.
    + intros H S. apply H. constructor. auto.
  - split; [intros _ x R; exfalso; eapply reads_quote; eauto|]. intros _. exists 1. destruct K as [<-|[<-|[]]]; reflexivity.
  - change (olist [sym "if"; a; b; c]) with (OPair (sym "if") (olist [a; b; c])). rewrite acc_seq by (simpl; auto). split.
    + intros H x R. apply reads_if in R as [e [I R]]. assert (X := H e I). simpl in I. destruct I as [<-|[<-|[<-|[]]]]; [rewrite Ha in X|rewrite Hb in X|rewrite Hc in X]; auto.
    + intros H e I. assert (Y : forall x, reads e x -> In x sc) by (intros x R; apply H; econstructor; eauto).
      simpl in I. destruct I as [<-|[<-|[<-|[]]]]; [apply Ha|apply Hb|apply Hc]; auto.
  - rewrite acc_set, He. split.
    + intros H x R. apply H. eapply reads_set; eauto.
    + intros H x R. apply H. constructor. auto.
  - rewrite acc_let by auto. split.
    + intros [H1 H2] x R. apply reads_let in R as [[b [I [R N]]]|[e [I [R N]]]]; auto.
      * specialize (H1 b I). rewrite (HB _ I) in H1. specialize (H1 x R). destruct K as [<-|[<-|[]]]; auto. simpl in H1.
        apply in_app_or in H1 as [J|J]; auto. exfalso. apply N; auto. apply bound_by_concat; auto.
      * specialize (H2 e I). rewrite (HE _ I) in H2. specialize (H2 x R). apply in_app_or in H2 as [J|J]; auto. exfalso. apply N. apply bound_by_concat; auto.
    + intros H. split.
      * intros b I. apply HB; auto. intros x R. destruct K as [<-|[<-|[]]]; simpl.
        -- apply H. eapply RdLet; eauto.
        -- apply in_or_app. destruct (reads_in_dec x (List.concat (map fst bs)) (reads_symbol _ _ R)) as [J|J]; auto.
           right. apply H. eapply RdLetrec; eauto. rewrite bound_by_concat. auto.
      * intros e I. apply HE; auto. intros x R. apply in_or_app.
        destruct (reads_in_dec x (List.concat (map fst bs)) (reads_symbol _ _ R)) as [J|J]; auto.
        right. apply H. eapply RdBody; eauto. rewrite bound_by_concat. auto.
  - destruct (formals_names_some _ _ F) as [ns E]. assert (B := formals_names_spec _ _ E). rewrite (acc_lambda sc fm body ns E). split.
    + intros H x R. apply reads_lambda in R as [e [I [R N]]]. specialize (H e I). rewrite (HE _ I) in H. specialize (H x R).
      apply in_app_or in H as [J|J]; auto. exfalso. apply N. apply B. auto.
    + intros H e I. apply HE; auto. intros x R. apply in_or_app. destruct (reads_in_dec x ns (reads_symbol _ _ R)) as [J|J]; auto.
      right. apply H. eapply RdLambda; eauto. rewrite <- B. auto.
  - rewrite acc_case; [|intros c I; eapply formals_names_some; apply FC; auto]. split.
    + intros H x R. apply reads_case in R as [c [e [Ic [I [R N]]]]]. destruct (formals_names_some strict (fst c)) as [ns E]; [apply FC; auto|].
      specialize (H c ns Ic E e I). rewrite (HE c Ic e I) in H. specialize (H x R). apply in_app_or in H as [J|J]; auto. exfalso. apply N. eapply formals_names_spec; eauto.
    + intros H c ns Ic E e I. assert (X : forall x, reads e x -> In x (ns ++ sc)).
      { intros x R. apply in_or_app. destruct (reads_in_dec x ns (reads_symbol _ _ R)) as [J|J]; auto.
        right. apply H. eapply RdCase; eauto. rewrite <- (formals_names_spec _ _ E). auto. }
      apply (HE c Ic e I (ns ++ sc)). auto.
  - rewrite acc_seq by (simpl; auto). split.
    + intros H x R. apply reads_begin in R as [e [I R]]. specialize (H e I). rewrite (HE _ I) in H. auto.
    + intros H e I. apply HE; auto. intros x R. apply H. eapply RdBegin; eauto.
  - rewrite acc_app by auto. split.
    + intros H x R. apply reads_app in R as [e [[<-|I] R]]; auto.
      * specialize (H _ (or_introl eq_refl)). rewrite HH in H; auto.
      * specialize (H e (or_intror I)). rewrite (HA _ I) in H. auto.
    + intros H e I. assert (X : forall x, reads e x -> In x sc) by (intros x R; apply H; eapply RdApp; eauto).
      destruct I as [<-|I]; [apply HH; auto|apply HA; auto].
Qed.

(** Modules *)
Lemma check_top_le f g sc e : f <= g -> check_top f sc e = XOk tt -> check_top g sc e = XOk tt.
Proof.
  intros L. unfold check_top. destruct (form_is "define-values" e); [|apply check_var_le; auto].
  destruct (to_list e) as [[|a [|b [|v r]]]|]; auto. apply check_var_le; auto.
Qed.
Lemma defined_define ids e : defined_names (olist [sym "define-values"; olist ids; e]) = ids.
Proof. unfold defined_names. change (form_is "define-values" (olist [sym "define-values"; olist ids; e])) with true. cbn [olist]. rewrite to_olist. auto. Qed.
Lemma form_is_spec k e : form_is k e = true <-> exists q, e = OPair (sym k) q.
Proof.
  unfold form_is. destruct e; try (split; [discriminate|intros [q E]; discriminate]). rewrite is_kw_spec.
  split; [intros ->; eauto|intros [q E]; congruence].
Qed.
Lemma checkm_iff strict es sc : (forall e, In e es -> mform strict e) ->
  (exists f, check_module f es sc = XOk tt) <-> forall e x, In e es -> mreads e x -> defines es x \/ In x sc.
Proof.
  intros W. set (sc' := List.concat (map defined_names es) ++ sc).
  assert (D : forall x, In x (List.concat (map defined_names es)) <-> defines es x).
  { intros x. rewrite in_concat. split.
    - intros [l [I J]]. apply in_map_iff in I as [e [<- I]]. destruct (W e I) as [ids e SI C|e C N].
      + rewrite defined_define in J. exists ids, e. auto.
      + unfold defined_names in J. destruct (form_is "define-values" e) eqn:F; [|destruct J]. apply form_is_spec in F. contradiction.
    - intros [ids [e [I J]]]. exists ids. split; auto. rewrite <- (defined_define ids e). apply in_map. auto. }
  assert (T : forall e, In e es -> ((exists f, check_top f sc' e = XOk tt) <-> forall x, mreads e x -> In x sc')).
  { intros e I. destruct (W e I) as [ids e SI C|e C N].
    - change (forall f, check_top f sc' (olist [sym "define-values"; olist ids; e]) = XOk tt) with (forall f, check_var f sc' e = XOk tt).
      assert (Q := checker_iff strict e C sc'). split.
      + intros [f H] x R. assert (X : acc sc' e) by (exists f; exact H). rewrite Q in X. apply X.
        remember (olist [sym "define-values"; olist ids; e]) as o eqn:E. destruct R as [ids' e' x R|o x R N].
        * apply olist_inj in E. injection E as _ E. subst. auto.
        * exfalso. apply N. subst. eexists. reflexivity.
      + intros H. assert (X : acc sc' e). { apply Q. intros x R. apply H. constructor. auto. } destruct X as [f X]. exists f. exact X.
    - assert (Q := checker_iff strict e C sc'). assert (F : form_is "define-values" e = false).
      { destruct (form_is "define-values" e) eqn:F; auto. apply form_is_spec in F. contradiction. }
      unfold check_top. rewrite F. split.
      + intros X x R. change (acc sc' e) in X. rewrite Q in X. apply X. destruct R as [ids' e' x R|o x R N']; auto.
        exfalso. apply N. eexists. reflexivity.
      + intros H. apply Q. intros x R. apply H. constructor; auto. }
  transitivity (forall e, In e es -> exists f, check_top f sc' e = XOk tt).
  - unfold check_module. fold sc'. split.
    + intros [f H] e I. rewrite checkl_ok in H. eauto.
    + intros H. assert (X : exists f, forall e, In e es -> check_top f sc' e = XOk tt).
      { clear W D T. revert H. generalize sc'. clear sc'. intros sc' H. induction es as [|a es IH]; [exists 0; intros ? []|].
        destruct IH as [f F]; [intros e I; apply H; right; auto|]. destruct (H a (or_introl eq_refl)) as [g G].
        exists (f + g). intros e [<-|I]; [eapply check_top_le; [|exact G]|eapply check_top_le; [|apply F; auto]]; lia. }
      destruct X as [f X]. exists f. apply checkl_ok. auto.
  - split.
    + intros H e x I R. specialize (H e I). rewrite (T e I) in H. specialize (H x R). apply in_app_or in H as [J|J]; auto. left. apply D. auto.
    + intros H e I. rewrite (T e I). intros x R. apply in_or_app. destruct (H e x I R) as [J|J]; auto. left. apply D. auto.
Qed.

(** The checker always answers. *)
Lemma xthen_fuel a b : a <> XFuel -> b <> XFuel -> xthen a b <> XFuel.
Proof. destruct a; simpl; auto. Qed.
Lemma checkl_fuel g l : (forall e, In e l -> g e <> XFuel) -> checkl g l <> XFuel.
Proof. induction l as [|a l IH]; simpl; intros H; [discriminate|]. apply xthen_fuel; auto. Qed.
Lemma to_list_size o l e : to_list o = Some l -> In e l -> size e < size o.
Proof.
  intros H. apply to_list_spec in H. subst. induction l as [|a l IH]; [intros []|]. simpl. intros [<-|I]; [lia|]. specialize (IH I). lia.
Qed.
Lemma forl_fuel o g : (forall e, size e < size o -> g e <> XFuel) -> forl o (checkl g) <> XFuel.
Proof.
  intros H. unfold forl. destruct (to_list o) as [l|] eqn:E; [|discriminate]. apply checkl_fuel. intros e I. apply H. eapply to_list_size; eauto.
Qed.
Lemma check_var_answers f : forall sc e, size e <= f -> check_var f sc e <> XFuel.
Proof.
  induction f as [|f IH]; intros sc e L; [assert (X := size_pos e); lia|].
  destruct e as [| | | | | | | | | |h q| | | | | | |]; cbn [check_var]; try (simpl; discriminate);
    try (match goal with |- (if ?b then _ else _) <> _ => destruct b; discriminate end).
  cbn [size] in L. assert (Z := size_pos h).
  destruct (is_kw "lambda" h).
  { destruct q as [| | | | | | | | | |fm body| | | | | | |]; try discriminate. cbn [size] in L. destruct (formals_names fm); [|discriminate].
    apply forl_fuel. intros e Le. apply IH. lia. }
  destruct (is_kw "case-lambda" h).
  { apply forl_fuel. intros c Lc. destruct c as [| | | | | | | | | |fm body| | | | | | |]; try discriminate. destruct (formals_names fm); [|discriminate].
    cbn [size] in Lc. apply forl_fuel. intros e Le. apply IH. lia. }
  destruct (is_kw "let-values" h || is_kw "letrec-values" h).
  { destruct q as [| | | | | | | | | |bs body| | | | | | |]; try discriminate. cbn [size] in L. destruct (to_list bs) as [l|] eqn:El; [|discriminate].
    destruct (bindings_parts l) as [ps|] eqn:E; [|discriminate]. cbv zeta. apply xthen_fuel.
    - apply checkl_fuel. intros e I. apply IH. apply in_map_iff in I as [[ids v] [<- I]]. simpl.
      assert (X : exists b, In b l /\ size v < size b).
      { clear -E I. revert ps E I. induction l as [|b l IH]; intros ps E I; simpl in E.
        - injection E as <-. destruct I.
        - destruct (binding_parts b) as [[i w]|] eqn:B; [|discriminate]. destruct (bindings_parts l) as [qs|]; [|discriminate].
          injection E as <-. destruct I as [I|I].
          + injection I as -> ->. exists b. split; [left; auto|]. unfold binding_parts in B. destruct (to_list b) as [[|x [|y r]]|] eqn:T; try discriminate.
            destruct (to_list x); [|discriminate]. injection B as -> ->. eapply to_list_size; [exact T|]. right. left. auto.
          + destruct (IH qs eq_refl I) as [b' [J K]]. exists b'. split; [right; auto|auto]. }
      destruct X as [b [I' X]]. assert (Y := to_list_size _ _ _ El I'). lia.
    - apply forl_fuel. intros e Le. apply IH. lia. }
  destruct (is_kw "set!" h).
  { destruct (to_list q) as [[|y [|v r]]|] eqn:E; try discriminate. apply IH. assert (X := to_list_size _ _ v E (or_intror (or_introl eq_refl))). lia. }
  destruct (is_kw "if" h || is_kw "begin" h); [apply forl_fuel; intros e Le; apply IH; lia|].
  destruct (is_kw "quote" h || is_kw "quote-syntax" h); [discriminate|].
  apply forl_fuel. intros e Le. apply IH. cbn [size] in Le. lia.
Qed.
Lemma check_top_answers f sc e : size e <= f -> check_top f sc e <> XFuel.
Proof.
  intros L. unfold check_top. destruct (form_is "define-values" e); [|apply check_var_answers; auto].
  destruct (to_list e) as [[|a [|b [|v r]]]|] eqn:E; try discriminate.
  apply check_var_answers. assert (X := to_list_size _ _ v E). simpl in X. assert (size v < size e) by auto. lia.
Qed.

(** ** More fuel does not change what the expander returns *)
Definition ap {A} (a b : xres A) : Prop := a = XFuel \/ a = b.
Lemma ap_refl {A} (a : xres A) : ap a a. Proof. right. auto. Qed.
Lemma ap_fuel {A} (b : xres A) : ap XFuel b. Proof. left. auto. Qed.
Lemma ap_bind {A B} (a b : xres A) (g h : A -> xres B) : ap a b -> (forall x, ap (g x) (h x)) -> ap (xbind a g) (xbind b h).
Proof. intros [->| ->] H; [left; auto|]. destruct b; simpl; [apply H|right; auto|right; auto]. Qed.
Lemma ap_map {A B} (g h : A -> xres B) l : (forall x, ap (g x) (h x)) -> ap (mapx g l) (mapx h l).
Proof. intros H. induction l as [|a l IH]; simpl; [apply ap_refl|]. repeat (apply ap_bind; intros; auto). apply ap_refl. Qed.

Section Mono.
Variable evalx : obj -> option (list tr).
Ltac apstep :=
  repeat match goal with
  | |- ap ?a ?a => apply ap_refl
  | |- ap (xbind _ _) (xbind _ _) => apply ap_bind; [|intros ?]
  | |- ap (mapx _ _) (mapx _ _) => apply ap_map; intros ?
  | H : forall _ _ _, ap _ _ |- _ => apply H
  | H : forall _ _ _ _, ap _ _ |- _ => apply H
  | H : forall _ _, ap _ _ |- _ => apply H
  | |- ap (match ?x with _ => _ end) (match ?x with _ => _ end) => destruct x
  end.
Lemma expand_mono1 f :
  (forall xf rb e, ap (expand_expr evalx f xf rb e) (expand_expr evalx (S f) xf rb e)) /\
  (forall seen bs body xf, ap (expand_let_syntaxes evalx f seen bs body xf) (expand_let_syntaxes evalx (S f) seen bs body xf)) /\
  (forall xf l, ap (body_loop_of evalx f xf l) (body_loop_of evalx (S f) xf l)) /\
  (forall xf e0 rest defs, ap (body_loop evalx f xf e0 rest defs) (body_loop evalx (S f) xf e0 rest defs)).
Proof.
  induction f as [|f [IE [IL [IB IO]]]]; [repeat split; intros; apply ap_fuel|].
  remember (S f) as f1.
  split; [|split; [|split]].
  - intros xf rb e. rewrite Heqf1 at 1. cbn [expand_expr]. destruct (self_eval e); [apply ap_refl|].
    destruct e as [| | | | |n| | | | |h q| | | | | | |]; try apply ap_refl; [destruct (xassoc n xf) as [[fn sc]|]; [destruct (fn (OSym n)); [apply IE|apply ap_refl]|apply ap_refl]|].
    repeat match goal with |- ap (if ?b then _ else _) (if ?b then _ else _) => destruct b end; try apply ap_refl.
    + destruct (check_let_form (OPair h q)) as [[bs body]|]; [apply IL|apply ap_refl].
    + destruct (check_let_form (OPair h q)) as [[bs body]|]; [|apply ap_refl]. destruct (dup_bindings [] bs); [apply ap_refl|]. apstep.
    + destruct (check_clause q) as [[fm body]|]; [|apply ap_refl]. apstep.
    + destruct (to_list q) as [l|]; [|apply ap_refl]. destruct (check_clause_list l) as [cls|]; [|apply ap_refl]. apstep.
    + destruct (check_if_form (OPair h q)) as [[[a b] c]|]; [|apply ap_refl]. apstep.
    + destruct (to_list q) as [[|b r]|]; try apply ap_refl. apstep.
    + destruct (check_set_form (OPair h q)) as [[x rhs]|]; [|apply ap_refl]. apstep.
    + destruct (lookup_xform h xf) as [[fn sc]|].
      * destruct (fn (OPair h q)); [apply IE|apply ap_refl].
      * destruct (to_list (OPair h q)) as [l|]; [|apply ap_refl]. apstep.
  - intros seen bs body xf. rewrite Heqf1 at 1. cbn [expand_let_syntaxes]. destruct bs as [|[ids rhs] r]; [apstep|].
    destruct (duplicate seen ids); [apply ap_refl|]. apply ap_bind; [apply IE|]. intros rhs'. destruct (evalx rhs') as [fs|]; [|apply ap_refl].
    destruct (List.length ids =? List.length fs); [apply IL|apply ap_refl].
  - intros xf l. rewrite Heqf1 at 1. cbn [body_loop_of]. destruct l; [apply ap_refl|apply IO].
  - intros xf e0 rest defs. rewrite Heqf1 at 1. cbn [body_loop]. apply ap_bind; [apply IE|]. intros e.
    destruct (form_is "begin" e).
    { destruct (to_list e) as [[|a [|b r]]|]; try apply ap_refl. apply IO. }
    destruct (form_is "define-syntaxes" e).
    { destruct rest; [apply ap_refl|]. destruct (to_list e) as [[|a [|b [|c r]]]|]; try apply ap_refl. apstep. }
    destruct (form_is "define-values" e).
    { destruct rest as [|b r]; [apply ap_refl|]. destruct (to_list e) as [[|a' [|b' [|c r']]]|]; try apply ap_refl. apply ap_bind; [apply IE|]. intros v. apply IO. }
    destruct rest as [|b r]; [apply ap_refl|]. destruct defs; [|apply IO]. apply ap_bind; [apply IO|]. intros ?. apply ap_refl.
Qed.
Lemma ap_le {A} (F : nat -> xres A) : (forall f, ap (F f) (F (S f))) -> forall f g, f <= g -> ap (F f) (F g).
Proof.
  intros H f g L. induction L as [|g L IH]; [apply ap_refl|]. destruct IH as [IH|IH]; [left; auto|].
  rewrite IH. apply H.
Qed.
Lemma expand_top_mono1 f : forall e xf, ap (expand_top f e xf) (expand_top (S f) e xf).
Proof.
  induction f as [|f IH]; intros e xf; [apply ap_fuel|]. remember (S f) as f1. rewrite Heqf1 at 1. cbn [expand_top].
  destruct e as [| | | | | | | | | |h q| | | | | | |]; try apply ap_refl.
  destruct (is_kw "define-syntaxes" h || is_kw "define-values" h || is_kw "begin" h); [apply ap_refl|].
  destruct (lookup_xform h xf) as [[fn sc]|]; [|apply ap_refl]. destruct (fn (OPair h q)); [apply IH|apply ap_refl].
Qed.
Lemma non_define_mono1 f : forall es sc st, ap (non_define evalx f es sc st) (non_define evalx (S f) es sc st).
Proof.
  induction f as [|f IH]; intros es sc st; [apply ap_fuel|]. remember (S f) as f1. rewrite Heqf1 at 1. cbn [non_define].
  destruct es as [|e0 r]; [apply ap_refl|].
  assert (IE : forall xf rb e, ap (expand_expr evalx f xf rb e) (expand_expr evalx f1 xf rb e)) by (subst f1; apply expand_mono1).
  apply ap_bind; [subst f1; apply expand_top_mono1|]. intros [e isc].
  destruct (form_is "define-syntaxes" e).
  { destruct (check_define_form e) as [[ids rhs]|]; [|apply ap_refl]. destruct (duplicate (xform_ids st) ids); [apply ap_refl|].
    apply ap_bind; [apply IE|]. intros rhs'. destruct (evalx rhs'); [|apply ap_refl]. destruct (List.length ids =? List.length l); [apply IH|apply ap_refl]. }
  destruct (form_is "define-values" e).
  { destruct (check_define_form e) as [[ids rhs]|]; [|apply ap_refl]. destruct (duplicate (define_ids st) ids); [apply ap_refl|].
    apply ap_bind; [apply IH|]. intros [? ?]. apply ap_refl. }
  destruct (form_is "begin" e).
  { destruct (to_list e) as [l|]; [|apply ap_refl]. destruct (tl l) as [|b q]; [apply IH|].
    apply ap_bind; [apply IH|]. intros [es1 st1]. apply ap_bind; [apply IH|]. intros [? ?]. apply ap_refl. }
  apply ap_bind; [apply IE|]. intros e'. apply ap_bind; [apply IH|]. intros [? ?]. apply ap_refl.
Qed.
Lemma check_module_mono1 f es sc : ap (check_module f es sc) (check_module (S f) es sc).
Proof.
  assert (T : forall sc e, ap (check_var f sc e) (check_var (S f) sc e)).
  { induction f as [|f IH]; intros sc' e; [apply ap_fuel|]. remember (S f) as f1. rewrite Heqf1 at 1. cbn [check_var].
    assert (L : forall sc l, ap (checkl (check_var f sc) l) (checkl (check_var f1 sc) l)).
    { intros sc'' l. induction l as [|a l IHl]; [apply ap_refl|]. simpl. destruct (IH sc'' a) as [E|E]; rewrite E; [left; auto|].
      destruct (check_var f1 sc'' a); simpl; auto; apply ap_refl. }
    assert (F : forall sc o, ap (forl o (checkl (check_var f sc))) (forl o (checkl (check_var f1 sc)))).
    { intros sc'' o. unfold forl. destruct (to_list o); [apply L|apply ap_refl]. }
    destruct e as [| | | | | | | | | |h q| | | | | | |]; try apply ap_refl.
    destruct (is_kw "lambda" h).
    { destruct q as [| | | | | | | | | |fm body| | | | | | |]; try apply ap_refl. destruct (formals_names fm); [apply F|apply ap_refl]. }
    destruct (is_kw "case-lambda" h).
    { unfold forl at 1 3. destruct (to_list q) as [l|]; [|apply ap_refl]. induction l as [|c l IHl]; [apply ap_refl|]. cbn [checkl].
      match goal with |- ap (xthen ?a ?b) (xthen ?c ?d) => assert (X : ap a c) end.
      { destruct c as [| | | | | | | | | |fm body| | | | | | |]; try apply ap_refl. destruct (formals_names fm); [apply F|apply ap_refl]. }
      destruct X as [X|X]; rewrite X; [left; auto|]. match goal with |- ap (xthen ?a _) _ => destruct a end; simpl; auto; apply ap_refl. }
    destruct (is_kw "let-values" h || is_kw "letrec-values" h).
    { destruct q as [| | | | | | | | | |bs body| | | | | | |]; try apply ap_refl. destruct (to_list bs) as [l|]; [|apply ap_refl].
      destruct (bindings_parts l) as [ps|]; [|apply ap_refl]. cbv zeta.
      match goal with |- ap (xthen ?a ?b) (xthen ?c ?d) => assert (X : ap a c) by apply L; assert (Y : ap b d) by apply F end.
      destruct X as [X|X]; rewrite X; [left; auto|]. match goal with |- ap (xthen ?a _) _ => destruct a end; simpl; auto; apply ap_refl. }
    destruct (is_kw "set!" h).
    { destruct (to_list q) as [[|y [|v r]]|]; try apply ap_refl. apply IH. }
    destruct (is_kw "if" h || is_kw "begin" h); [apply F|].
    destruct (is_kw "quote" h || is_kw "quote-syntax" h); [apply ap_refl|]. apply F. }
  unfold check_module. generalize (List.concat (map defined_names es) ++ sc). intros sc'. induction es as [|a es IH]; [apply ap_refl|]. cbn [checkl].
  assert (X : ap (check_top f sc' a) (check_top (S f) sc' a)).
  { unfold check_top. destruct (form_is "define-values" a); [|apply T]. destruct (to_list a) as [[|x [|y [|v r]]]|]; try apply ap_refl. apply T. }
  destruct X as [X|X]; rewrite X; [left; auto|]. destruct (check_top (S f) sc' a); simpl; auto; apply ap_refl.
Qed.
Lemma expand_module_mono1 f es xf sc : ap (expand_module evalx f es xf sc) (expand_module evalx (S f) es xf sc).
Proof.
  unfold expand_module. apply ap_bind; [apply non_define_mono1|]. intros [es1 st].
  apply ap_bind.
  - apply ap_map. intros e. unfold define_values1. destruct (form_is "define-values" e); [|apply ap_refl].
    destruct (to_list e) as [[|a [|b [|v r]]]|]; try apply ap_refl. apply ap_bind; [apply expand_mono1|]. intros ?. apply ap_refl.
  - intros es2. apply ap_bind; [apply check_module_mono1|]. intros ?. apply ap_refl.
Qed.
End Mono.

(** ** Code without macros

    [quiet xf e]: [e] is fully expanded, has no begin forms, and no variable in it
    is the name of a transformer in [xf]. *)
Definition all_keywords : list string :=
  ["define-values"; "define-syntaxes"; "let-syntaxes"]%string ++ expr_keywords.
Inductive quiet (xf : xforms) : obj -> Prop :=
| QAtom o : atom o -> (forall n, o = OSym n -> ~ In n (map fst xf)) -> quiet xf o
| QQuote k d : In k ["quote"; "quote-syntax"]%string -> quiet xf (olist [sym k; d])
| QIf a b c : quiet xf a -> quiet xf b -> quiet xf c -> quiet xf (olist [sym "if"; a; b; c])
| QSet y e : symbol y -> quiet xf e -> quiet xf (olist [sym "set!"; y; e])
| QLet k bs body : In k ["let-values"; "letrec-values"]%string ->
    (forall x, bound_by bs x -> symbol x) -> NoDup (List.concat (map fst bs)) ->
    (forall b, In b bs -> quiet xf (snd b)) -> body <> [] -> (forall e, In e body -> quiet xf e) ->
    quiet xf (OPair (sym k) (OPair (obindings bs) (olist body)))
| QLambda fm body : body <> [] -> (forall e, In e body -> quiet xf e) ->
    quiet xf (OPair (sym "lambda") (OPair fm (olist body)))
| QCase cls : (forall c, In c cls -> snd c <> []) ->
    (forall c, In c cls -> forall e, In e (snd c) -> quiet xf e) ->
    quiet xf (OPair (sym "case-lambda") (oclauses cls))
| QApp h args : (forall k, In k all_keywords -> h <> sym k) -> quiet xf h -> (forall e, In e args -> quiet xf e) ->
    quiet xf (OPair h (olist args)).

Lemma quiet_form xf e k : quiet xf e -> In k ["begin"; "define-values"; "define-syntaxes"]%string -> form_is k e = false.
Proof.
  intros Q K. destruct (form_is k e) eqn:F; auto. exfalso. apply form_is_spec in F as [q E].
  assert (EH := f_equal ocar E). cbn [ocar] in EH.
  destruct Q as [o A _|j d J|a b c _ _ _|y e _ _|j bs body J _ _ _ _ _|fm body _ _|cls _ _|h args P _ _];
    rewrite ?olist_cons in *; cbn [ocar] in EH; try (subst; contradiction);
    try (apply sym_inj in EH; simpl in K; try simpl in J; intuition congruence).
  - apply (P k); auto. unfold all_keywords, expr_keywords. simpl in K |- *. intuition.
Qed.
Ltac kwred :=
  repeat match goal with |- context [is_kw ?a (sym ?b)] =>
    let v := eval vm_compute in (is_kw a (sym b)) in change (is_kw a (sym b)) with v end;
  cbn [self_eval orb].
Section Quiet.
Variable evalx : obj -> option (list tr).
Notation expand_expr := (expand_expr evalx).
Notation body_loop_of := (body_loop_of evalx).
Notation body_loop := (body_loop evalx).
Notation expand_let_syntaxes := (expand_let_syntaxes evalx).
(** Unfolding equations. *)
Lemma expand_expr_S (f : nat) (xf : xforms) (rb : bool) (e : obj) : expand_expr (S f) xf rb e =
    (let loop := expand_expr f xf rb in
      if self_eval e then XOk e
      else match e with
      | OSym n =>
          match xassoc n xf with
          | Some (Xf fn _) => match fn e with Some e' => loop e' | None => XErr end
          | None => XOk e
          end
      | OGensym _ _ => XOk e
      | OPair h q =>
          if is_kw "define-values" h || is_kw "define-syntaxes" h then XOk e
          else if is_kw "let-syntaxes" h then
            match check_let_form e with
            | None => XErr
            | Some (bs, body) => expand_let_syntaxes f [] bs body xf
            end
          else if is_kw "let-values" h || is_kw "letrec-values" h then
            match check_let_form e with
            | None => XErr
            | Some (bs, body) =>
                if dup_bindings [] bs then XErr
                else let! bs' := mapx (fun b => let! v := loop (snd b) in XOk (of_list (fst b), v)) bs in
                     let! body' := body_loop_of f xf body in
                     XOk (let_form h bs' body')
            end
          else if is_kw "lambda" h then
            match check_clause q with
            | None => XErr
            | Some (fm, body) => let! body' := body_loop_of f xf body in XOk (OPair h (OPair fm (of_list body')))
            end
          else if is_kw "case-lambda" h then
            match to_list q with
            | None => XErr
            | Some l =>
                match check_clause_list l with
                | None => XErr
                | Some cls =>
                    let! cls' := mapx (fun c => let! body' := body_loop_of f xf (snd c) in XOk (OPair (fst c) (of_list body'))) cls in
                    XOk (OPair h (of_list cls'))
                end
            end
          else if is_kw "if" h then
            match check_if_form e with
            | None => XErr
            | Some (a, b, c) =>
                let! a' := loop a in let! b' := loop b in let! c' := loop c in
                XOk (of_list [h; a'; b'; c'])
            end
          else if is_kw "begin" h then
            match to_list q with
            | None => XErr
            | Some [] => XOk (of_list [sym "void"])
            | Some body =>
                if rb then
                  let! body' := body_loop_of f xf body in
                  match body' with
                  | [x] => XOk x
                  | _ => XOk (OPair (sym "begin") (of_list body'))
                  end
                else let! body' := mapx loop body in XOk (OPair (sym "begin") (of_list body'))
            end
          else if is_kw "set!" h then
            match check_set_form e with
            | None => XErr
            | Some (x, rhs) => let! v := loop rhs in XOk (of_list [h; x; v])
            end
          else if is_kw "quote" h || is_kw "quote-syntax" h then
            if check_1ary e then XOk e else XErr
          else
            match lookup_xform h xf with
            | Some (Xf fn sc) =>
                match fn e with
                | Some e' => expand_expr f (merge xf sc) rb e'
                | None => XErr
                end
            | None =>
                match to_list e with
                | Some l => let! l' := mapx loop l in XOk (of_list l')
                | None => XErr
                end
            end
      | _ => XErr
      end).
Proof. reflexivity. Qed.
Lemma expand_let_syntaxes_S (f : nat) (seen : list obj) (bs : list (list obj * obj)) (body : list obj) (xf : xforms) : expand_let_syntaxes (S f) seen bs body xf =
    (match bs with
      | [] => let! body' := body_loop_of f xf body in XOk (let_form (sym "let-values") [] body')
      | (ids, rhs) :: r =>
          if duplicate seen ids then XErr
          else let! rhs' := expand_expr f xf true rhs in
               match evalx rhs' with
               | None => XErr
               | Some fs => if List.length ids =? List.length fs
                            then expand_let_syntaxes f (ids ++ seen) r body (bind_xforms ids fs xf)
                            else XErr
               end
      end).
Proof. reflexivity. Qed.
Lemma body_loop_of_S (f : nat) (xf : xforms) (l : list obj) : body_loop_of (S f) xf l =
    (match l with [] => XErr | a :: r => body_loop f xf a r [] end).
Proof. reflexivity. Qed.
Lemma body_loop_S (f : nat) (xf : xforms) (e0 : obj) (rest : list obj) (defs : list (obj * obj)) : body_loop (S f) xf e0 rest defs =
    (let! e := expand_expr f xf false e0 in
      if form_is "begin" e then
        match to_list e with
        | Some (_ :: a :: more) => body_loop f xf a (more ++ rest) defs
        | _ => XErr
        end
      else if form_is "define-syntaxes" e then
        match rest, to_list e with
        | _ :: _, Some (_ :: ids :: value :: _) =>
            let! inner := expand_expr f xf true
                            (OPair (sym "let-syntaxes") (OPair (of_list [of_list [ids; value]]) (of_list rest))) in
            XOk [let_form (sym "letrec-values") (rev defs) [inner]]
        | _, _ => XErr
        end
      else if form_is "define-values" e then
        match rest, to_list e with
        | b :: r, Some (_ :: ids :: value :: _) =>
            let! v := expand_expr f xf true value in
            body_loop f xf b r ((ids, v) :: defs)
        | _, _ => XErr
        end
      else match rest with
      | b :: r =>
          match defs with
          | [] => let! tl := body_loop f xf b r [] in XOk (e :: tl)
          | _ => body_loop f xf b r
                   ((ONull, of_list [sym "let-values"; ONull; e; of_list [sym "values"]]) :: defs)
          end
      | [] =>
          match defs with
          | [] => XOk [e]
          | _ => XOk [let_form (sym "letrec-values") (rev defs) [e]]
          end
      end).
Proof. reflexivity. Qed.
Definition stays (xf : xforms) (e : obj) : Prop := forall rb, exists f, expand_expr f xf rb e = XOk e.
Lemma expand_le f g xf rb e o : f <= g -> expand_expr f xf rb e = XOk o -> expand_expr g xf rb e = XOk o.
Proof.
  intros L H. destruct (ap_le (fun f => expand_expr f xf rb e) (fun f => proj1 (expand_mono1 evalx f) xf rb e) f g L) as [E|E]; congruence.
Qed.
Lemma body_le f g xf l o : f <= g -> body_loop_of f xf l = XOk o -> body_loop_of g xf l = XOk o.
Proof.
  intros L H. destruct (ap_le (fun f => body_loop_of f xf l) (fun f => proj1 (proj2 (proj2 (expand_mono1 evalx f))) xf l) f g L) as [E|E]; congruence.
Qed.
Lemma loop_le f g xf a r d o : f <= g -> body_loop f xf a r d = XOk o -> body_loop g xf a r d = XOk o.
Proof.
  intros L H. destruct (ap_le (fun f => body_loop f xf a r d) (fun f => proj2 (proj2 (proj2 (expand_mono1 evalx f))) xf a r d) f g L) as [E|E]; congruence.
Qed.
Lemma map_stays {A} (g : nat -> A -> xres obj) (h : A -> obj) l :
  (forall f f' a o, f <= f' -> g f a = XOk o -> g f' a = XOk o) ->
  (forall a, In a l -> exists f, g f a = XOk (h a)) -> exists f, mapx (g f) l = XOk (map h l).
Proof.
  intros M. induction l as [|a l IH]; intros H; [exists 0; auto|]. destruct IH as [f F]; [intros; apply H; right; auto|].
  destruct (H a (or_introl eq_refl)) as [f' F']. exists (f + f'). simpl. rewrite (M f' (f + f') a _ ltac:(lia) F'). simpl.
  assert (X : forall l r, mapx (g f) l = XOk r -> mapx (g (f + f')) l = XOk r).
  { clear -M. induction l as [|b l IH]; simpl; auto. intros r H. destruct (g f b) as [o| |] eqn:E; try discriminate. rewrite (M f (f + f') b o ltac:(lia) E).
    simpl in *. destruct (mapx (g f) l) as [q| |]; try discriminate. rewrite (IH q eq_refl). auto. }
  rewrite (X _ _ F). auto.
Qed.
Lemma body_stays xf body : body <> [] -> (forall e, In e body -> stays xf e /\ quiet xf e) -> exists f, body_loop_of f xf body = XOk body.
Proof.
  intros NE H. destruct body as [|a r]; [congruence|]. assert (X : exists f, body_loop f xf a r [] = XOk (a :: r)).
  { clear NE. revert a H. induction r as [|b r IH]; intros a H.
    - destruct (H a (or_introl eq_refl)) as [S Q]. destruct (S false) as [f F]. exists (Datatypes.S f). rewrite body_loop_S. rewrite F. cbn [xbind].
      rewrite !(quiet_form xf a) by (auto; simpl; auto). auto.
    - destruct (H a (or_introl eq_refl)) as [S Q]. destruct (S false) as [f F]. destruct (IH b) as [g G]; [intros; apply H; right; auto|].
      exists (Datatypes.S (f + g)). rewrite body_loop_S. rewrite (expand_le f (f + g)) with (o := a) by (auto; lia). cbn [xbind].
      rewrite !(quiet_form xf a) by (auto; simpl; auto). rewrite (loop_le g (f + g)) with (o := b :: r) by (auto; lia). auto. }
  destruct X as [f F]. exists (Datatypes.S f). exact F.
Qed.
Lemma ident_list_ok ids : (forall x, In x ids -> symbol x) -> ident_list (olist ids) = Some ids.
Proof.
  intros H. unfold ident_list. rewrite to_olist. replace (forallb symbolp ids) with true; auto. symmetry. apply forallb_forall.
  intros x I. apply symbolp_spec. auto.
Qed.
Lemma check_bindings_ok bs : (forall x, bound_by bs x -> symbol x) -> check_bindings (map (fun b => olist [olist (fst b); snd b]) bs) = Some bs.
Proof.
  induction bs as [|[ids e] bs IH]; intros H; auto. cbn [map check_bindings fst snd]. rewrite to_olist, ident_list_ok, IH; auto.
  - intros x [b [I J]]. apply H. exists b. split; auto. right. auto.
  - intros x I. apply H. exists (ids, e). split; auto. left. auto.
Qed.
Lemma check_let_ok h bs body : (forall x, bound_by bs x -> symbol x) -> body <> [] ->
  check_let_form (OPair h (OPair (obindings bs) (olist body))) = Some (bs, body).
Proof.
  intros H NE. unfold check_let_form, obindings. rewrite !to_olist, check_bindings_ok by auto. destruct body; [congruence|auto].
Qed.
Lemma duplicate_ok ids : forall seen, (forall x, In x ids -> symbol x) -> NoDup ids -> (forall x, In x ids -> ~ In x seen) -> duplicate seen ids = false.
Proof.
  induction ids as [|i ids IH]; intros seen S N D; auto. simpl. inversion N; subst. replace (existsb (obj_sym_dec i) seen) with false.
  - apply IH; auto. { intros x I. apply S. right; auto. } intros x I [<-|J]; [contradiction|]. apply (D x); auto. right; auto.
  - symmetry. destruct (existsb (obj_sym_dec i) seen) eqn:E; auto. exfalso. change (in_scope i seen = true) in E.
    apply in_scope_spec in E; [|apply S; left; auto]. apply (D i); auto. left; auto.
Qed.
Lemma nodup_app {A} (a b : list A) : NoDup (a ++ b) -> NoDup a /\ NoDup b /\ forall x, In x a -> ~ In x b.
Proof.
  induction a as [|x a IH]; simpl; intros H; [repeat split; auto; constructor|]. inversion H as [|? ? N H']; subst. destruct (IH H') as [H1 [H2 H3]].
  split; [constructor; auto; intros I; apply N, in_or_app; auto|]. split; auto. intros y [<-|I] J; [apply N, in_or_app; auto|exact (H3 y I J)].
Qed.
Lemma dup_bindings_ok bs : forall seen, (forall x, bound_by bs x -> symbol x) -> NoDup (List.concat (map fst bs)) ->
  (forall x, bound_by bs x -> ~ In x seen) -> dup_bindings seen bs = false.
Proof.
  induction bs as [|[ids e] bs IH]; intros seen S N D; auto. cbn [map fst List.concat] in N. apply nodup_app in N as [N1 [N2 N3]]. cbn [dup_bindings].
  assert (B : forall x, In x ids -> bound_by ((ids, e) :: bs) x) by (intros x I; exists (ids, e); split; auto; left; auto).
  assert (B' : forall x, bound_by bs x -> bound_by ((ids, e) :: bs) x) by (intros x [b [I J]]; exists b; split; auto; right; auto).
  rewrite duplicate_ok; auto. simpl. apply IH; auto. intros x I J. apply in_app_or in J as [J|J]; [|exact (D x (B' x I) J)].
  apply (N3 x J). apply bound_by_concat. auto.
Qed.
Lemma quiet_stays xf e : quiet xf e -> stays xf e.
Proof.
  induction 1 as [o A N|k d K|a b c _ Ha _ Hb _ Hc|y e Sy _ He|k bs body K SB ND QB HB NE QE HE|fm body NE QE HE|cls FC QE HE|h args P QH HH QA HA]; intros rb.
  - exists 1. rewrite expand_expr_S. cbv zeta. kwred. destruct o as [| | | | |n| | | | | | | | | | | |]; simpl in A; try contradiction; auto. simpl.
    assert (X : xassoc n xf = None).
    { specialize (N n eq_refl). revert N. clear. induction xf as [|[m x] xf IH]; auto. simpl. intros N. destruct (name_dec n m); [exfalso; auto|auto]. }
    rewrite X. auto.
  - exists 1. destruct K as [<-|[<-|[]]]; reflexivity.
  - destruct (Ha rb) as [f1 F1], (Hb rb) as [f2 F2], (Hc rb) as [f3 F3]. exists (S (f1 + f2 + f3)). rewrite olist_cons. rewrite expand_expr_S. cbv zeta. kwred.
    change (check_if_form (OPair (sym "if") (olist [a; b; c]))) with (Some (a, b, c)). 
    cbv iota. 
    rewrite (expand_le f1 (f1 + f2 + f3) xf rb a a), (expand_le f2 (f1 + f2 + f3) xf rb b b), (expand_le f3 (f1 + f2 + f3) xf rb c c) by (auto; lia). reflexivity.
  - destruct (He rb) as [f F]. exists (S f). rewrite olist_cons. rewrite expand_expr_S. cbv zeta. kwred. assert (SP := proj2 (symbolp_spec y) Sy).
    replace (check_set_form (OPair (sym "set!") (olist [y; e]))) with (Some (y, e)) by (simpl; rewrite SP; auto).
    cbn [self_eval]. cbv iota. rewrite F. reflexivity.
  - destruct (body_stays xf body NE) as [f F]; [auto|].
    destruct (map_stays (fun f (b : list obj * obj) => let! v := expand_expr f xf rb (snd b) in XOk (OPair (of_list (fst b)) v)) (fun b => OPair (of_list (fst b)) (snd b)) bs) as [g G].
    { intros f1 f2 b o L E. destruct (expand_expr f1 xf rb (snd b)) as [v| |] eqn:X; try discriminate. rewrite (expand_le f1 f2 xf rb (snd b) v); auto. }
    { intros b I. destruct (HB b I rb) as [f1 F1]. exists f1. rewrite F1. auto. }
    assert (G' : forall n, g <= n -> mapx (fun b : list obj * obj => let! v := expand_expr n xf rb (snd b) in XOk (of_list (fst b), v)) bs = XOk (map (fun b => (of_list (fst b), snd b)) bs)).
    { intros n L. clear -G L evalx. revert G. induction bs as [|b bs IH]; simpl; auto. intros G. destruct (expand_expr g xf rb (snd b)) as [v| |] eqn:X; try discriminate.
      rewrite (expand_le g n xf rb (snd b) v L X). simpl in *. destruct (mapx _ bs) as [q| |] eqn:Y; try discriminate. simpl in G.
      injection G as -> E2. rewrite IH; auto. congruence. }
    exists (S (f + g)). rewrite expand_expr_S. cbv zeta. kwred. rewrite check_let_ok by auto. rewrite dup_bindings_ok by (auto; intros ? ? []).
    rewrite G' by lia. cbn [xbind]. rewrite (body_le f (f + g) xf body body) by (auto; lia). cbn [xbind].
    assert (E : let_form (sym k) (map (fun b : list obj * obj => (of_list (fst b), snd b)) bs) body = OPair (sym k) (OPair (obindings bs) (olist body))).
    { unfold let_form, obindings. rewrite map_map. reflexivity. }
    destruct K as [<-|[<-|[]]]; cbn [self_eval]; exact (f_equal XOk E).
  - destruct (body_stays xf body NE) as [f F]; [auto|]. exists (S f). rewrite expand_expr_S. cbv zeta. kwred.
    replace (check_clause (OPair fm (olist body))) with (Some (fm, body)) by (unfold check_clause; rewrite to_olist; destruct body; [congruence|auto]).
    cbn [self_eval]. cbv iota. rewrite F. reflexivity.
  - destruct (map_stays (fun f (c : obj * list obj) => let! body' := body_loop_of f xf (snd c) in XOk (OPair (fst c) (of_list body'))) (fun c => OPair (fst c) (olist (snd c))) cls) as [f F].
    { intros f1 f2 c o L E. destruct (body_loop_of f1 xf (snd c)) as [v| |] eqn:X; try discriminate. rewrite (body_le f1 f2 xf (snd c) v); auto. }
    { intros c I. destruct (body_stays xf (snd c)) as [f F]; [auto|intros e J; split; [exact (HE c I e J)|exact (QE c I e J)]|]. exists f. rewrite F. auto. }
    exists (S f). rewrite expand_expr_S. cbv zeta. kwred. unfold oclauses. rewrite to_olist.
    assert (X : check_clause_list (map (fun c : obj * list obj => OPair (fst c) (olist (snd c))) cls) = Some cls).
    { clear -FC. induction cls as [|[fm body] cls IH]; auto. cbn [map check_clause_list fst snd]. unfold check_clause. rewrite to_olist.
      rewrite IH by (intros; apply FC; right; auto). assert (NE := FC _ (or_introl eq_refl)). simpl in NE. destruct body; [congruence|auto]. }
    rewrite X. cbn [self_eval]. cbv iota. rewrite F. reflexivity.
  - destruct (map_stays (fun f e => expand_expr f xf rb e) (fun e => e) (h :: args)) as [f F].
    { intros f1 f2 e o L E. eapply expand_le; eauto. }
    { intros e [<-|I]; [apply HH|apply (HA e I)]. }
    exists (S f). rewrite expand_expr_S. cbv zeta. kwred.
    rewrite !(proj2 (is_kw_false _ h)) by (apply P; unfold all_keywords, expr_keywords; simpl; tauto). cbn [self_eval orb].
    assert (X : lookup_xform h xf = None).
    { inversion QH as [o A N|k d K|a b c|y e|k bs body|fm body|cls|h' args']; subst; auto. destruct h as [| | | | |n| | | | | | | | | | | |]; simpl in A; try contradiction; auto. simpl.
      specialize (N n eq_refl). revert N. clear. induction xf as [|[m x] xf IH]; auto. simpl. intros N. destruct (name_dec n m); [exfalso; auto|auto]. }
    rewrite X. rewrite <- (olist_cons h args), to_olist. rewrite map_id in F. change (mapx (fun e => expand_expr f xf rb e) (h :: args)) with (mapx (expand_expr f xf rb) (h :: args)) in F.
    rewrite F. reflexivity.
Qed.
End Quiet.
