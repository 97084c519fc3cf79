(** C56: the derived forms of the standard library. *)
From Coq Require Import ZArith NArith Bool Ascii String List Arith Lia.
From Verif Require Import Base Heap HeapM Ast Sem Check Expand Derived CheckThm ExpandProofs BodyProofs DerivedProofs.
Import ListNotations.
Local Open Scope list_scope.

Lemma add_none s : add_cells [] s = s.
Proof. destruct s. unfold add_cells. simpl. rewrite app_nil_r. reflexivity. Qed.
Lemma eval_let0 prim t r s cs x s' : eval prim t r s (ELet [] cs) x s' <-> evseq prim t r s cs x s'.
Proof.
  split.
  - intros E. apply eval_let_inv in E as [[vs [s1 [B Q]]]|[y [_ B]]]; inversion B; subst. rewrite add_none in Q. exact Q.
  - intros E. eapply EvLet; [constructor|]. rewrite add_none. exact E.
Qed.
Lemma one_each_ids xs cs : List.length xs = List.length cs -> List.concat (map fst (one_each xs cs)) = xs.
Proof. unfold one_each. revert cs. induction xs as [|x xs IH]; intros [|c cs] L; simpl in *; try lia; auto. f_equal. apply IH. lia. Qed.
Lemma evbinds_args prim t r : forall xs cs s o s', List.length xs = List.length cs ->
  (evbinds prim t r s (one_each xs cs) o s' <-> evargs prim t r s cs o s').
Proof.
  unfold one_each. induction xs as [|x xs IH]; intros [|c cs] s o s' L; simpl in L; try lia.
  - simpl. split; intros H; inversion H; subst; constructor.
  - cbn [map combine]. split; intros H.
    + inversion H as [|? ? ? ? ? ? vs s1 ws s2 E LN B|? ? ? ? ? ? vs s1 y s2 E LN B|? ? ? ? ? ? vs s1 E LN|? ? ? ? ? ? y s1 E]; subst.
      * destruct vs as [|v [|]]; simpl in LN; try lia. cbn [app]. eapply EaCons; [apply E1Val; exact E|]. apply IH in B; auto.
      * destruct vs as [|v [|]]; simpl in LN; try lia. eapply EaErrRest; [apply E1Val; exact E|]. apply IH in B; auto.
      * apply EaErr. change (List.length [x]) with 1. apply E1Bad; auto.
      * apply EaErr. apply E1Err. auto.
    + inversion H as [|? ? ? ? ? v s1 vs s2 E B|? ? ? ? ? y s1 E|? ? ? ? ? v s1 y s2 E B]; subst.
      * inversion E; subst. change (v :: vs) with ([v] ++ vs). eapply EbCons; eauto. apply IH; auto.
      * inversion E; subst; [|apply EbErr; auto]. change 1 with (List.length [x]). eapply EbBad; eauto.
      * inversion E; subst. eapply EbErrRest; eauto. apply IH; auto.
Qed.
Lemma eval_let_rule prim t r s xs cs body x s' : List.length xs = List.length cs ->
  (eval prim t r s (ELet (one_each xs cs) body) x s' <-> let_rule prim t r s xs cs body x s').
Proof.
  intros L. split; intros H.
  - apply eval_let_inv in H as [[vs [s1 [B Q]]]|[y [-> B]]]; rewrite evbinds_args in B by auto.
    + rewrite one_each_ids in Q by auto. eapply LetRun; eauto.
    + apply LetErr. auto.
  - inversion H; subst.
    + eapply EvLet; [apply evbinds_args; eauto|]. rewrite one_each_ids by auto. auto.
    + apply EvLetErr. apply evbinds_args; auto.
Qed.
Lemma eval_let1 prim t r s y c body x s' : eval prim t r s (ELet [([y], c)] body) x s' <->
  (exists v s1, eval1 prim t r s c (inl v) s1 /\ evseq prim t ((y, List.length (cells_of s1)) :: r) (add_cells [v] s1) body x s') \/
  (exists z, x = RErr z /\ eval1 prim t r s c (inr z) s').
Proof.
  change [([y], c)] with (one_each [y] [c]). rewrite eval_let_rule by auto. split; intros H.
  - inversion H as [vs s1 ? ? A B|z s1 A]; subst.
    + inversion A as [|? ? ? ? ? v s2 ws s3 E A'| |]; subst. inversion A'; subst. left. eauto.
    + inversion A as [| |? ? ? ? ? ? ? E|? ? ? ? ? v s2 ? ? E A']; subst; [right; eauto|inversion A'].
  - destruct H as [[v [s1 [E Q]]]|[z [-> E]]].
    + eapply LetRun; [eapply EaCons; [exact E|constructor]|exact Q].
    + apply LetErr. apply EaErr. auto.
Qed.
Ltac inv_if E := inversion E; subst.

(** ** and, or *)
Theorem C56_and evalx lit xf rb os cs :
  lit OTrue = VTrue -> lit OFalse = VFalse -> provides xf "and" and_tr ->
  Forall2 (compiles evalx lit xf rb) os cs ->
  exists c, compiles evalx lit xf rb (form "and" os) c /\
    forall prim t r s x s', eval prim t r s c x s' <-> and_rule prim t r s cs x s'.
Proof.
  intros LT LF PR H. exists (and_code lit cs). split; [apply and_compiles; auto|]. clear H. intros prim t r.
  induction cs as [|c cs IH]; intros s x s'.
  - simpl. rewrite LT. split; intros E; inversion E; subst; constructor.
  - destruct cs as [|c1 cs].
    + simpl. split; intros E; [apply AndLast; auto|inversion E; subst; auto; contradiction].
    + assert (NE : c1 :: cs <> []) by discriminate. change (and_code lit (c :: c1 :: cs)) with (EIf c (and_code lit (c1 :: cs)) (EConst (lit OFalse))). rewrite LF.
      remember (c1 :: cs) as l. split; intros E.
      * inv_if E; [eapply AndNext; eauto; apply IH; auto| |apply AndErr; auto].
        match goal with K : eval _ _ _ _ (EConst _) _ _ |- _ => inversion K; subst end. apply AndFalse; auto.
      * inversion E; subst; try (exfalso; congruence); [eapply EvIfFalse; eauto; constructor|eapply EvIfTrue; eauto; apply IH; auto|apply EvIfErr; auto].
Qed.
Theorem C56_or_partial evalx lit xf rb o os c cs :
  lit OFalse = VFalse -> provides xf "or" or_tr -> unused xf "or-t" ->
  compiles evalx lit xf rb o c -> Forall2 (compiles evalx lit xf false) os cs ->
  exists k, compiles evalx lit xf rb (form "or" (o :: os)) k /\
    forall prim t r s x s', eval prim t r s k x s' <-> or_rule prim t r s (c :: cs) x s'.
Proof.
  intros LF PR U C H. exists (or_code lit (c :: cs)). split; [apply or_compiles; auto|]. clear H C. intros prim t.
  revert c. induction cs as [|c1 cs IH]; intros c r s x s'.
  - simpl. split; intros E; [apply OrLast; auto|inversion E; subst; auto; contradiction].
  - change (or_code lit (c :: c1 :: cs)) with (ELet [([Id "or-t"], c)] [EIf (EVar (Id "or-t")) (EVar (Id "or-t")) (or_code lit (c1 :: cs))]).
    assert (NE : c1 :: cs <> []) by discriminate. rewrite eval_let1.
    assert (LK : forall k r, lookup_env (Id "or-t") ((Id "or-t", k) :: r) = Some k) by reflexivity.
    assert (NTH : forall v s1, nth_error (cells_of (add_cells [v] s1)) (List.length (cells_of s1)) = Some v).
    { intros v s1. unfold add_cells. cbn [cells_of]. rewrite nth_error_app2, Nat.sub_diag by lia. reflexivity. }
    split.
    + intros [[v [s1 [E Q]]]|[z [-> E]]]; [|apply OrErr; auto]. inversion Q as [|? ? ? ? ? ? EI| |]; subst.
      assert (VE : forall w s2, eval prim t ((Id "or-t", List.length (cells_of s1)) :: r) (add_cells [v] s1) (EVar (Id "or-t")) w s2 ->
         s2 = add_cells [v] s1 /\ ((v <> VUnbound /\ w = RVals [v]) \/ (v = VUnbound /\ w = RErr (ErrInit (Id "or-t"))))).
      { intros w s2 EV. inversion EV; subst; rewrite LK in *; try congruence; match goal with K : Some _ = Some _ |- _ => injection K as <- end; rewrite NTH in *; split; auto; [left|right]; split; congruence. }
      inv_if EI.
      * match goal with K : eval _ _ _ _ (EVar _) (RVals [?a]) _ |- _ => apply VE in K as [-> [[NU K]|[_ K]]]; [injection K as ->|discriminate] end.
        match goal with K : eval _ _ _ _ (EVar _) _ _ |- _ => apply VE in K as [-> [[_ ->]|[NU' _]]]; [|congruence] end. apply OrTrue; auto.
      * match goal with K : eval _ _ _ _ (EVar _) _ _ |- _ => apply VE in K as [-> [[NU K]|[_ K]]]; [injection K as <-|discriminate] end.
        eapply OrNext; eauto. apply IH. auto.
      * match goal with K : eval _ _ _ _ (EVar _) _ _ |- _ => apply VE in K as [-> [[NU K]|[-> K]]]; [discriminate|injection K as ->] end. apply OrUnbound; auto.
    + intros E. inversion E; subst; try contradiction.
      * left. do 2 eexists. split; eauto. apply EsLast. assert (EV : eval prim t ((Id "or-t", List.length (cells_of s1)) :: r) (add_cells [v] s1) (EVar (Id "or-t")) (RVals [v]) (add_cells [v] s1)).
        { eapply EvLocal; eauto. } eapply EvIfTrue; eauto.
      * left. do 2 eexists. split; eauto. apply EsLast. apply EvIfErr. eapply EvLocalInit; eauto.
      * left. do 2 eexists. split; eauto. apply EsLast. eapply EvIfFalse; [eapply EvLocal; eauto; discriminate|]. apply IH. auto.
      * right. eauto.
Qed.

(** ** cond, when, unless *)
Theorem C56_cond evalx lit xf rb l cl :
  provides xf "cond" cond_tr -> provides xf "let" let_tr -> unused xf "void" -> cond_ok evalx lit xf rb l cl ->
  exists c, compiles evalx lit xf rb (form "cond" l) c /\
    forall prim t r s x s', eval prim t r s c x s' <-> cond_rule prim t r s cl x s'.
Proof. apply cond_compiles. Qed.
Theorem C56_when evalx lit xf rb test os c cs :
  provides xf "when" when_tr -> unused xf "void" -> compiles evalx lit xf rb test c -> compiles_body evalx lit xf os cs ->
  exists k, compiles evalx lit xf rb (form "when" (test :: os)) k /\
    forall prim t r s x s', eval prim t r s k x s' <-> when_rule prim t true r s c cs x s'.
Proof.
  intros PR U C B. destruct os as [|o os]; [destruct B as [[|f] [os' [E _]]]; discriminate E|].
  exists (EIf c (ELet [] cs) void_call). split.
  - eapply macro_step; [exact PR|apply let_kw; simpl; tauto| |apply compiles_if; [exact C|apply compiles_let0; exact B|apply compiles_void; auto]].
    unfold when_tr. rewrite <- olist_cons, to_olist. reflexivity.
  - intros. split; intros E.
    + inv_if E; [eapply WhenRun; eauto; apply eval_let0; auto|eapply WhenSkip; eauto; reflexivity|apply WhenErr; auto].
    + inversion E; subst; [eapply EvIfTrue; eauto; apply eval_let0; auto|eapply EvIfFalse; eauto|apply EvIfErr; auto].
Qed.
Theorem C56_unless evalx lit xf rb test os c cs :
  provides xf "unless" unless_tr -> provides xf "let" let_tr -> unused xf "void" -> compiles evalx lit xf rb test c -> compiles_body evalx lit xf os cs ->
  exists k, compiles evalx lit xf rb (form "unless" (test :: os)) k /\
    forall prim t r s x s', eval prim t r s k x s' <-> when_rule prim t false r s c cs x s'.
Proof.
  intros PR PL U C B. destruct os as [|o os]; [destruct B as [[|f] [os' [E _]]]; discriminate E|].
  exists (EIf c void_call (ELet [] cs)). split.
  - eapply macro_step; [exact PR|apply let_kw; simpl; tauto| |apply compiles_if; [exact C|apply compiles_void; auto|apply let0_compiles; [exact PL| |exact B]; discriminate]].
    unfold unless_tr. rewrite <- olist_cons, to_olist. reflexivity.
  - intros. split; intros E.
    + inv_if E; [eapply WhenSkip; eauto|eapply WhenRun; eauto; try reflexivity; apply eval_let0; auto|apply WhenErr; auto].
    + inversion E; subst; [eapply EvIfFalse; eauto; apply eval_let0; auto|eapply EvIfTrue; eauto|apply EvIfErr; auto].
Qed.

Lemma Forall2_length {A B} {R : A -> B -> Prop} {l l'} : Forall2 R l l' -> List.length l = List.length l'.
Proof. induction 1; simpl; auto. Qed.
(** ** let, let*, letrec, named let


    [vars] are the written variables, [xs] the identifiers they stand for. *)
Definition names (vars : list obj) (xs : list ident) : Prop := Forall2 (fun i x => pident i = POk x) vars xs.
Definition bindings (vars vals : list obj) : obj := olist (map (fun b => olist [fst b; snd b]) (combine vars vals)).
Lemma names_symbols vars xs : names vars xs -> forall v, In v vars -> symbol v.
Proof. induction 1 as [|i x vars xs E _ IH]; [intros v []|]. intros v [<-|I]; auto. destruct i; try discriminate E; [left|right]; eauto. Qed.
Lemma splice_bindings vars vals xs : names vars xs -> List.length vars = List.length vals -> splice (bindings vars vals) = Some (combine vars vals).
Proof.
  intros N. assert (S := names_symbols _ _ N). clear N. unfold bindings. revert vals. induction vars as [|v vars IH]; intros [|e vals] L; simpl in L; try lia; auto.
  cbn [combine map olist fst snd splice]. rewrite (proj2 (symbolp_spec v)) by (apply S; left; auto). rewrite IH; auto. intros w I. apply S. right. auto.
Qed.
Lemma symbolp_bindings vars vals : symbolp (bindings vars vals) = false.
Proof. unfold bindings. destruct (combine vars vals); reflexivity. Qed.
Theorem C56_let evalx lit xf rb vars vals xs cs os body :
  provides xf "let" let_tr -> names vars xs -> NoDup vars -> List.length vars = List.length vals ->
  Forall2 (compiles evalx lit xf rb) vals cs -> compiles_body evalx lit xf os body ->
  exists c, compiles evalx lit xf rb (form "let" (bindings vars vals :: os)) c /\
    forall prim t r s x s', eval prim t r s c x s' <-> let_rule prim t r s xs cs body x s'.
Proof.
  intros PR N ND L C B. destruct os as [|o os]; [destruct B as [[|f] [os' [E _]]]; discriminate E|].
  exists (ELet (one_each xs cs) body). split.
  - eapply macro_step; [exact PR|apply let_kw; simpl; tauto| |apply (compiles_let evalx lit xf rb "let-values" vars vals xs cs (o :: os) body); simpl; auto].
    unfold let_tr. rewrite <- olist_cons, to_olist. rewrite symbolp_bindings, (splice_bindings vars vals xs) by auto. reflexivity.
  - intros. apply eval_let_rule. rewrite <- (Forall2_length N), <- (Forall2_length C). auto.
Qed.
Lemma inits_rec prim t r : forall xs cs s k o s', List.length xs = List.length cs ->
  (evrec prim t r s k (one_each xs cs) o s' <-> inits prim t r s k cs o s').
Proof.
  unfold one_each. induction xs as [|x xs IH]; intros [|c cs] s k o s' L; simpl in L; try lia.
  - simpl. split; intros H; inversion H; subst; constructor.
  - cbn [map combine]. split; intros H.
    + inversion H as [|? ? ? ? ? ? ? vs s1 ? ? E LN B|? ? ? ? ? ? ? vs s1 E LN|? ? ? ? ? ? ? y s1 E]; subst.
      * destruct vs as [|v [|]]; simpl in LN; try lia. eapply InNext; [apply E1Val; exact E|]. simpl in B. rewrite Nat.add_1_r in B. apply IH in B; auto.
      * apply InErr. change (List.length [x]) with 1. apply E1Bad; auto.
      * apply InErr. apply E1Err. auto.
    + inversion H as [|? ? ? ? v s1 ? ? E B|? ? ? ? y s1 E]; subst.
      * inversion E; subst. eapply ErCons with (vs := [v]); eauto. simpl. rewrite Nat.add_1_r. apply IH; auto.
      * inversion E; subst; [|apply ErErr; auto]. change 1 with (List.length [x]). eapply ErBad; eauto.
Qed.
Lemma eval_letrec_rule prim t r s xs cs body x s' : List.length xs = List.length cs ->
  (eval prim t r s (ELetrec (one_each xs cs) body) x s' <-> letrec_rule prim t r s xs cs body x s').
Proof.
  intros L. split; intros H.
  - apply eval_letrec_inv in H. cbv zeta in H. rewrite one_each_ids in H by auto. destruct H as [[s1 [B Q]]|[y [-> B]]]; rewrite inits_rec in B by auto.
    + eapply LrRun; eauto.
    + eapply LrErr; eauto.
  - inversion H; subst.
    + eapply EvLetrec; [reflexivity|reflexivity| |]; rewrite one_each_ids by auto; [apply inits_rec; eauto|auto].
    + eapply EvLetrecErr; [reflexivity|reflexivity|]. rewrite one_each_ids by auto. apply inits_rec; eauto.
Qed.
Theorem C56_letrec evalx lit xf rb vars vals xs cs os body :
  provides xf "letrec" letrec_tr -> names vars xs -> NoDup vars -> List.length vars = List.length vals ->
  Forall2 (compiles evalx lit xf rb) vals cs -> compiles_body evalx lit xf os body ->
  exists c, compiles evalx lit xf rb (form "letrec" (bindings vars vals :: os)) c /\
    forall prim t r s x s', eval prim t r s c x s' <-> letrec_rule prim t r s xs cs body x s'.
Proof.
  intros PR N ND L C B. destruct os as [|o os]; [destruct B as [[|f] [os' [E _]]]; discriminate E|].
  exists (ELetrec (one_each xs cs) body). split.
  - eapply macro_step; [exact PR|apply let_kw; simpl; tauto| |apply (compiles_let evalx lit xf rb "letrec-values" vars vals xs cs (o :: os) body); simpl; auto].
    unfold letrec_tr. rewrite <- olist_cons, to_olist. rewrite (splice_bindings vars vals xs) by auto. reflexivity.
  - intros. apply eval_letrec_rule. rewrite <- (Forall2_length N), <- (Forall2_length C). auto.
Qed.
(** The first expression of let* is where the whole form is; the others are in
    bodies. *)
Theorem C56_let_star evalx lit xf rb v0 e0 vars vals x0 xs c0 cs os body :
  provides xf "let*" let_star_tr -> names (v0 :: vars) (x0 :: xs) -> List.length vars = List.length vals ->
  compiles evalx lit xf rb e0 c0 -> Forall2 (compiles evalx lit xf false) vals cs -> compiles_body evalx lit xf os body ->
  exists c, compiles evalx lit xf rb (form "let*" (bindings (v0 :: vars) (e0 :: vals) :: os)) c /\
    forall prim t r s x s', eval prim t r s c x s' <-> let_star_rule prim t r s (x0 :: xs) (c0 :: cs) body x s'.
Proof.
  intros PR N L C0 C B. destruct os as [|o os]; [destruct B as [[|f] [os' [E _]]]; discriminate E|].
  exists (ls_code (x0 :: xs) (c0 :: cs) body). split.
  - eapply macro_step with (e' := let_star (combine (v0 :: vars) (e0 :: vals)) (o :: os)); [exact PR|apply let_kw; simpl; tauto| |].
    { unfold let_star_tr. rewrite <- olist_cons, to_olist. rewrite (splice_bindings (v0 :: vars) (e0 :: vals) (x0 :: xs)) by (simpl; auto). reflexivity. }
    clear PR. revert rb v0 e0 x0 c0 vals xs cs N L C0 C. induction vars as [|v vars IH]; intros rb v0 e0 x0 c0 vals xs cs N L C0 C.
    + destruct vals; [|discriminate]. inversion C; subst. inversion N as [|? ? ? ? N0 N1]; subst. inversion N1; subst.
      apply (compiles_let evalx lit xf rb "let-values" [v0] [e0] [x0] [c0] (o :: os) body); simpl; auto; repeat constructor; auto.
    + destruct vals as [|e vals]; [discriminate|]. inversion C as [|? c ? cs' C1 C2]; subst. inversion N as [|? ? ? ? N0 N1]; subst. inversion N1 as [|? x ? xs' N2 N3]; subst.
      apply (compiles_let evalx lit xf rb "let-values" [v0] [e0] [x0] [c0] [let_star (combine (v :: vars) (e :: vals)) (o :: os)] [ls_code (x :: xs') (c :: cs') body]); simpl; auto; try (repeat constructor; auto; fail).
      apply compiles_body_one; [|destruct xs', cs'; exact Logic.I]. apply IH; auto.
  - intros prim t. assert (LX : List.length xs = List.length cs).
    { rewrite <- (Forall2_length C), <- L. inversion N; subst. symmetry. eapply Forall2_length; eauto. }
    clear -LX. revert x0 c0 cs LX. induction xs as [|x1 xs IH]; intros x0 c0 [|c1 cs] LX r s x s'; simpl in LX; try lia.
    + simpl. rewrite eval_let1. split.
      * intros [[v [s1 [E Q]]]|[z [-> E]]]; [eapply LsNext; eauto; apply LsBody; auto|apply LsErr; auto].
      * intros H. inversion H as [|? ? ? ? ? ? ? v s1 ? ? E Q|? ? ? ? ? ? ? z s1 E]; subst; [left|right; eauto]. inversion Q; subst. eauto.
    + change (ls_code (x0 :: x1 :: xs) (c0 :: c1 :: cs) body) with (ELet [([x0], c0)] [ls_code (x1 :: xs) (c1 :: cs) body]). rewrite eval_let1.
      assert (IH' := fun r s => IH x1 c1 cs ltac:(lia) r s). split.
      * intros [[v [s1 [E Q]]]|[z [-> E]]]; [|apply LsErr; auto]. inversion Q; subst. eapply LsNext; eauto. apply IH'. auto.
      * intros H. inversion H as [|? ? ? ? ? ? ? v s1 ? ? E Q|? ? ? ? ? ? ? z s1 E]; subst; [left|right; eauto]. exists v, s1. split; auto. apply EsLast. apply IH'. auto.
Qed.
Theorem C56_named_let evalx lit xf rb p vars vals xs cs os body :
  provides xf "let" let_tr -> unused xf p -> ~ In p reserved -> names vars xs -> List.length vars = List.length vals ->
  Forall2 (compiles evalx lit xf false) vals cs -> compiles_body evalx lit xf os body ->
  exists c, compiles evalx lit xf rb (form "let" (sym p :: bindings vars vals :: os)) c /\
    forall prim t r s x s', eval prim t r s c x s' <-> named_let_rule prim t r s (Id p) xs cs body x s'.
Proof.
  intros PR U R N L C B. assert (NE : os <> []) by (intros ->; destruct B as [[|f] [os' [E _]]]; discriminate E).
  exists (ELetrec [([Id p], ELam (Formals xs None) body)] [EApp (EVar (Id p)) cs]). split.
  - eapply macro_step with (e' := OPair (sym "letrec-values") (OPair (binding_obj (combine [sym p] [OPair (sym "lambda") (OPair (olist vars) (olist os))])) (olist [OPair (sym p) (olist vals)]))); [exact PR|apply let_kw; simpl; tauto| |].
    { unfold let_tr. rewrite <- olist_cons, to_olist. change (symbolp (sym p)) with true. cbv iota. rewrite (splice_bindings vars vals xs) by auto.
      replace (map fst (combine vars vals)) with vars; [replace (map snd (combine vars vals)) with vals; [reflexivity|]|]; clear -L; revert vals L; induction vars as [|v vars IH]; intros [|e vals] L; simpl in *; try lia; auto; f_equal; apply IH; lia. }
    apply (compiles_let evalx lit xf rb "letrec-values" [sym p] [OPair (sym "lambda") (OPair (olist vars) (olist os))] [Id p] [ELam (Formals xs None) body]); simpl; auto.
    + constructor; [|constructor]. unfold sym, pident, s2b. rewrite string_of_list_ascii_of_string. reflexivity.
    + constructor; [intros []|constructor].
    + constructor; [|constructor]. destruct B as [f [os' [E [g P]]]]. exists (S f), (OPair (sym "lambda") (OPair (olist vars) (olist os'))). split.
      * rewrite expand_expr_S. cbv zeta. kwred. unfold check_clause. rewrite to_olist. destruct os; [congruence|]. rewrite E. reflexivity.
      * exists (S g). change (parse lit (S g) (OPair (sym "lambda") (OPair (olist vars) (olist os')))) with (do fm <- pformals (olist vars); do es <- ploop (parse lit g) (olist os'); POk (ELam fm es)).
        assert (PF : pformals (olist vars) = POk (Formals xs None)).
        { clear -N. induction N as [|i x vars xs E _ IH]; auto. cbn [olist pformals]. rewrite E. cbn [pbind]. rewrite IH. reflexivity. }
        rewrite PF. cbn [pbind]. rewrite P. reflexivity.
    + apply compiles_body_one; [apply compiles_app; auto|]. simpl. intros ->. apply R. unfold reserved, all_keywords. simpl. tauto.
  - intros. change [([Id p], ELam (Formals xs None) body)] with (one_each [Id p] [ELam (Formals xs None) body]). rewrite eval_letrec_rule by auto.
    set (s0 := add_cells [VUnbound] s). set (r1 := (Id p, List.length (cells_of s)) :: r).
    assert (LK : lookup_env (Id p) r1 = Some (List.length (cells_of s))) by (unfold r1; cbn [lookup_env]; rewrite ident_eqb_refl; reflexivity).
    destruct (new_proc (PClo [(Formals xs None, body)] r1) s0) as [fv s1] eqn:NP.
    assert (FV : fv <> VUnbound) by (unfold new_proc in NP; injection NP as <- _; discriminate).
    assert (NTH : nth_error (cells_of (set_cell (List.length (cells_of s)) fv s1)) (List.length (cells_of s)) = Some fv).
    { unfold new_proc in NP. injection NP as _ <-. cbn [set_cell cells_of s0 add_cells]. clear. generalize (cells_of s). induction l; simpl; auto. }
    assert (EL : forall w s2, eval1 prim t r1 s0 (ELam (Formals xs None) body) w s2 <-> w = inl fv /\ s2 = s1).
    { intros w s2. split.
      - intros H. inversion H as [? ? ? ? ? ? E|? ? ? ? ? ? E LN|? ? ? ? ? ? E]; subst; inversion E; subst; [|simpl in LN; lia]. match goal with K : new_proc _ _ = _ |- _ => rewrite NP in K; injection K as <- <- end. auto.
      - intros [-> ->]. apply E1Val. apply EvLam. exact NP. }
    assert (EF : forall w s2 s3, s2 = set_cell (List.length (cells_of s)) fv s1 -> (eval1 prim t r1 s2 (EVar (Id p)) w s3 <-> w = inl fv /\ s3 = s2)).
    { intros w s2 s3 ->. split.
      - intros H. inversion H as [? ? ? ? ? ? E|? ? ? ? ? ? E LN|? ? ? ? ? ? E]; subst; inversion E; subst; rewrite LK in *; try discriminate; match goal with K : Some _ = Some _ |- _ => injection K as <- end; rewrite NTH in *; try (simpl in LN; lia); try congruence.
        split; congruence.
      - intros [-> ->]. apply E1Val. eapply EvLocal; eauto. }
    split; intros H.
    + inversion H as [s2 ? ? ? I Q|y s2 ? I]; subst; inversion I as [|? ? ? ? v s3 ? ? E I'|? ? ? ? z s3 E]; subst; apply EL in E as [E ->]; try discriminate; [injection E as ->|inversion I'].
      inversion I'; subst. inversion Q as [|? ? ? ? ? ? EA| |]; subst.
      inversion EA; subst; match goal with K : eval1 _ _ _ _ (EVar _) _ _ |- _ => apply EF in K as [K ->]; [|reflexivity]; try discriminate; injection K as -> end; [eapply NlRun; eauto|eapply NlErr; eauto].
    + inversion H as [fv' s1' vs s3 ? ? ? NP' A AP|fv' s1' y s3 ? NP' A]; subst; assert (NP2 := eq_trans (eq_sym NP) NP'); injection NP2 as <- <-; clear NP'.
      * eapply LrRun with (s1 := set_cell (List.length (cells_of s)) fv s1); [eapply InNext; [apply EL; auto|constructor]|]. apply EsLast. eapply EvApp; [apply EF; auto|exact A|exact AP].
      * eapply LrRun with (s1 := set_cell (List.length (cells_of s)) fv s1); [eapply InNext; [apply EL; auto|constructor]|]. apply EsLast. eapply EvAppErrA; [apply EF; auto|exact A].
Qed.

(** ** do: a named let *)
Lemma compiles_begin evalx lit xf os cs : os <> [] -> Forall2 (compiles evalx lit xf false) os cs ->
  compiles evalx lit xf false (OPair (sym "begin") (olist os)) (EBegin cs).
Proof.
  intros NE H. destruct (compiles_list _ _ _ _ _ _ H) as [f [os' [E [g P]]]]. exists (S f), (OPair (sym "begin") (olist os')). split.
  - rewrite expand_expr_S. cbv zeta. kwred. rewrite to_olist. destruct os as [|o os]; [congruence|]. cbv iota. cbv beta. rewrite E. reflexivity.
  - exists (S g). change (parse lit (S g) (OPair (sym "begin") (olist os'))) with (do es <- ploop (parse lit g) (olist os'); POk (EBegin es)). rewrite P. reflexivity.
Qed.
Definition do_bindings (vars vals steps : list obj) : obj := olist (map (fun b => olist [fst (fst b); snd (fst b); snd b]) (combine (combine vars vals) steps)).
Theorem C56_do evalx lit xf rb vars vals steps xs cs ss test tc es ecs cmds ccs :
  provides xf "do" do_tr -> provides xf "let" let_tr -> unused xf "loop" ->
  names vars xs -> List.length vars = List.length vals -> List.length vars = List.length steps ->
  Forall2 (compiles evalx lit xf false) vals cs -> Forall2 (compiles evalx lit xf false) steps ss ->
  compiles evalx lit xf false test tc -> es <> [] -> Forall2 (compiles evalx lit xf false) es ecs -> Forall2 (compiles evalx lit xf false) cmds ccs ->
  exists c, compiles evalx lit xf rb (form "do" (do_bindings vars vals steps :: olist (test :: es) :: cmds)) c /\
    forall prim t r s x s', eval prim t r s c x s' <->
      named_let_rule prim t r s (Id "loop") xs cs [EIf tc (EBegin ecs) (EBegin (ccs ++ [EApp (EVar (Id "loop")) ss]))] x s'.
Proof.
  intros PD PL U N LV LS CV CS CT NE CE CC.
  assert (R : ~ In "loop"%string reserved) by (unfold reserved, all_keywords, expr_keywords; simpl; intuition discriminate).
  set (bodyo := olist [sym "if"; test; OPair (sym "begin") (olist es); OPair (sym "begin") (olist (cmds ++ [OPair (sym "loop") (olist steps)]))]).
  destruct (C56_named_let evalx lit xf rb "loop" vars vals xs cs [bodyo] [EIf tc (EBegin ecs) (EBegin (ccs ++ [EApp (EVar (Id "loop")) ss]))] PL U R N LV CV) as [c [C M]].
  { apply compiles_body_one; [|exact Logic.I]. apply compiles_if; auto; apply compiles_begin; auto; [destruct cmds; discriminate|].
    apply Forall2_app; auto. constructor; [|constructor]. apply compiles_app; auto. }
  exists c. split; auto. eapply macro_step; [exact PD|unfold all_keywords, expr_keywords; simpl; intuition discriminate| |exact C].
  unfold do_tr. rewrite <- olist_cons, to_olist.
  assert (DS : do_specs (do_bindings vars vals steps) = Some (combine (combine vars vals) steps)).
  { clear -LV LS. unfold do_bindings. revert vals steps LV LS. induction vars as [|v vars IH]; intros [|e vals] [|st steps] A B; simpl in A, B; try lia; auto.
    cbn [combine map olist do_specs fst snd]. rewrite IH by lia. reflexivity. }
  rewrite DS, to_olist. unfold form, bodyo, bindings.
  replace (map (fun b : obj * obj * obj => of_list [fst (fst b); snd (fst b)]) (combine (combine vars vals) steps)) with (map (fun b => olist [fst b; snd b]) (combine vars vals)).
  - replace (map snd (combine (combine vars vals) steps)) with steps; [reflexivity|].
    clear -LV LS. revert vals steps LV LS. induction vars as [|v vars IH]; intros [|e vals] [|st steps] A B; simpl in *; try lia; auto. f_equal. apply IH; lia.
  - clear -LV LS. revert vals steps LV LS. induction vars as [|v vars IH]; intros [|e vals] [|st steps] A B; simpl in *; try lia; auto. f_equal. apply IH; lia.
Qed.

(** ** case *)
Definition case_obj (cl : list obj * list obj) : obj := OPair (olist (fst cl)) (olist (snd cl)).
(** The clauses and their code: the data are constants. *)
Inductive case_ok evalx lit (xf : xforms) : list (list obj * list obj) -> list (list expr * list expr) -> Prop :=
| KoNil : case_ok evalx lit xf [] []
| KoCons ks es body l cl : compiles_body evalx lit xf es body -> case_ok evalx lit xf l cl ->
    case_ok evalx lit xf ((ks, es) :: l) ((map (fun k => EConst (lit k)) ks, body) :: cl).
Lemma body_nonempty evalx lit xf os cs : compiles_body evalx lit xf os cs -> os <> [].
Proof. intros B ->. destruct B as [[|f] [os' [E _]]]; discriminate E. Qed.
Lemma test_compiles evalx lit xf ks : provides xf "case/test" case_test_tr -> unused xf "tmp" -> unused xf "equal?" ->
  compiles evalx lit xf false (olist [sym "case/test"; sym "tmp"; olist ks]) (test_code lit (map (fun k => EConst (lit k)) ks)).
Proof.
  intros PR UT UE. assert (EC : forall k, compiles evalx lit xf false (olist [sym "equal?"; sym "tmp"; olist [sym "quote"; k]]) (equal_call (EConst (lit k)))).
  { intros k. rewrite olist_cons. apply compiles_app; auto; [unfold reserved, all_keywords, expr_keywords; simpl; intuition discriminate|].
    constructor; [apply compiles_var; auto|]. constructor; [apply compiles_quote|constructor]. }
  assert (TR : forall ks, case_test_tr (olist [sym "case/test"; sym "tmp"; olist ks]) = match ks with [] => Some OFalse | [k] => Some (olist [sym "equal?"; sym "tmp"; olist [sym "quote"; k]])
     | k :: r => Some (olist [sym "if"; olist [sym "equal?"; sym "tmp"; olist [sym "quote"; k]]; OTrue; olist [sym "case/test"; sym "tmp"; olist r]]) end).
  { intros q. unfold case_test_tr. rewrite to_olist, to_olist. destruct q as [|k [|]]; reflexivity. }
  induction ks as [|k ks IH].
  - rewrite olist_cons. eapply macro_step; [exact PR|apply let_kw; simpl; tauto|rewrite <- olist_cons; apply (TR [])|]. apply compiles_lit. exact Logic.I.
  - destruct ks as [|k1 ks]; [rewrite olist_cons; eapply macro_step; [exact PR|apply let_kw; simpl; tauto|rewrite <- olist_cons; apply (TR [k])|]; apply EC|].
    rewrite olist_cons. eapply macro_step; [exact PR|apply let_kw; simpl; tauto|rewrite <- olist_cons; apply (TR (k :: k1 :: ks))|].
    change (test_code lit (map (fun k => EConst (lit k)) (k :: k1 :: ks))) with (EIf (equal_call (EConst (lit k))) (EConst (lit OTrue)) (test_code lit (map (fun k => EConst (lit k)) (k1 :: ks)))).
    apply compiles_if; auto. apply compiles_lit. exact Logic.I.
Qed.
Lemma else_compiles evalx lit xf : provides xf "case/else" case_else_tr -> provides xf "case/test" case_test_tr -> unused xf "tmp" -> unused xf "equal?" ->
  forall l cl els ec, case_ok evalx lit xf l cl -> compiles_body evalx lit xf els ec ->
  compiles evalx lit xf false (form "case/else" (sym "tmp" :: map case_obj l ++ [form "else" els])) (cc_code lit cl ec).
Proof.
  intros PE PT UT UE l cl els ec H B. induction H as [|ks es body l cl C H IH].
  - unfold form at 1. eapply macro_step; [exact PE|apply let_kw; simpl; tauto| |apply compiles_let0; exact B].
    unfold case_else_tr. rewrite <- olist_cons, to_olist. cbn [map app]. unfold form. rewrite <- olist_cons, to_olist. reflexivity.
  - assert (TC := test_compiles evalx lit xf ks PT UT UE). unfold form at 1. cbn [map app cc_code].
    eapply macro_step with (e' := olist [sym "if"; olist [sym "case/test"; sym "tmp"; olist ks]; OPair (sym "let-values") (OPair ONull (olist es));
       match l with [] => OPair (sym "let-values") (OPair ONull (olist els)) | _ => form "case/else" (sym "tmp" :: map case_obj l ++ [form "else" els]) end]); [exact PE|apply let_kw; simpl; tauto| |].
    + unfold case_else_tr. rewrite <- olist_cons, to_olist. unfold case_obj at 1. cbn [fst snd]. rewrite <- olist_cons, to_olist. destruct l as [|c l].
      * cbn [map app]. unfold form. rewrite <- olist_cons, !to_olist. reflexivity.
      * cbn [map app]. destruct (map case_obj l ++ [form "else" els]) as [|z zs] eqn:Z; [destruct (map case_obj l); discriminate|]. rewrite to_olist.
        replace (last (case_obj c :: z :: zs) ONull) with (form "else" els) by (rewrite <- Z; change (case_obj c :: map case_obj l ++ [form "else" els]) with ((case_obj c :: map case_obj l) ++ [form "else" els]); rewrite last_last; reflexivity).
        unfold form. rewrite <- olist_cons at 1. rewrite to_olist. reflexivity.
    + apply compiles_if; [exact TC|apply compiles_let0; exact C|]. destruct H as [|ks1 es1 b1 l cl C1 H]; [apply compiles_let0; exact B|exact IH].
Qed.
Lemma case_clauses_plain evalx lit xf l cl : case_ok evalx lit xf l cl -> case_clauses (map case_obj l) = Some (map (fun c => (Some (fst c), snd c)) l).
Proof.
  induction 1 as [|ks es body l cl C H IH]; auto. cbn [map case_clauses]. rewrite IH. assert (NE := body_nonempty _ _ _ _ _ C). destruct es as [|e es]; [congruence|].
  unfold case_clause, case_obj. cbn [fst snd]. rewrite <- olist_cons, to_olist. replace (is_kw "else" (olist ks)) with false by (destruct ks; reflexivity). rewrite to_olist. reflexivity.
Qed.
Lemma case_clauses_app a b ra rb : case_clauses a = Some ra -> case_clauses b = Some rb -> case_clauses (a ++ b) = Some (ra ++ rb).
Proof.
  revert ra. induction a as [|o a IH]; intros ra A B; simpl in *; [injection A as <-; auto|]. destruct (case_clause o); try discriminate. destruct (case_clauses a); try discriminate.
  injection A as <-. rewrite (IH _ eq_refl B). reflexivity.
Qed.
Lemma plain_map (l : list (list obj * list obj)) : plain_clauses (map (fun c => (Some (fst c), snd c)) l) = true.
Proof. induction l; simpl; auto. Qed.
Lemma test_meaning lit prim t r : lit OTrue = VTrue -> lit OFalse = VFalse -> forall ds s,
  (forall b s', case_test prim t r s ds (inl b) s' <-> exists v, eval prim t r s (test_code lit ds) (RVals [v]) s' /\ (b = false <-> v = VFalse)) /\
  (forall y s', case_test prim t r s ds (inr y) s' <-> eval prim t r s (test_code lit ds) (RErr y) s').
Proof.
  intros LT LF. induction ds as [|d ds IH]; intros s.
  - simpl. rewrite LF. split; intros; split; intros H.
    + inversion H; subst. exists VFalse. split; [constructor|tauto].
    + destruct H as [v [E B]]. inversion E; subst. replace b with false by (symmetry; tauto). constructor.
    + inversion H.
    + inversion H.
  - destruct ds as [|d1 ds].
    + simpl. split; intros; split; intros H.
      * inversion H as [|? ? ? v ? E NV|? ? ? ? ? ? E T|]; subst; [exists v; split; auto; split; [discriminate|congruence]|]. inversion T; subst. exists VFalse. split; auto. tauto.
      * destruct H as [v [E B]]. destruct b; [eapply CtHit; eauto; intros ->; assert (true = false) by tauto; discriminate|]. replace v with VFalse in E by (symmetry; tauto). eapply CtMiss; eauto. constructor.
      * inversion H as [| |? ? ? ? ? ? E T|]; subst; auto. inversion T.
      * apply CtErr. auto.
    + change (test_code lit (d :: d1 :: ds)) with (EIf (equal_call d) (EConst (lit OTrue)) (test_code lit (d1 :: ds))). rewrite LT. remember (d1 :: ds) as l. split; intros; split; intros H.
      * inversion H as [|? ? ? v ? E NV|? ? ? ? ? ? E T|]; subst.
        -- exists VTrue. split; [eapply EvIfTrue; eauto; constructor|split; discriminate].
        -- apply IH in T as [v [T B]]. exists v. split; auto. eapply EvIfFalse; eauto.
      * destruct H as [v [E B]]. inv_if E.
        -- match goal with K : eval _ _ _ _ (EConst _) _ _ |- _ => inversion K; subst end. destruct b; [eapply CtHit; eauto|]. assert (VTrue = VFalse) by tauto. discriminate.
        -- eapply CtMiss; eauto. apply IH. eauto.
      * inversion H as [| |? ? ? ? ? ? E T|]; subst; [eapply EvIfFalse; eauto; apply IH; auto|apply EvIfErr; auto].
      * inv_if H; [match goal with K : eval _ _ _ _ (EConst _) _ _ |- _ => inversion K end|eapply CtMiss; eauto; apply IH; auto|apply CtErr; auto].
Qed.
Lemma clauses_meaning lit prim t r : lit OTrue = VTrue -> lit OFalse = VFalse -> forall cls els s x s',
  eval prim t r s (cc_code lit cls els) x s' <-> case_clauses_rule prim t r s cls els x s'.
Proof.
  intros LT LF. induction cls as [|[ds b] cls IH]; intros els s x s'.
  - simpl. rewrite eval_let0. split; intros H; [apply CcElse; auto|inversion H; auto].
  - cbn [cc_code]. destruct (test_meaning lit prim t r LT LF ds s) as [TV TE]. split; intros H.
    + inv_if H.
      * eapply CcHit; [apply TV; eexists; split; eauto; split; [discriminate|congruence]|apply eval_let0; auto].
      * eapply CcMiss; [apply TV; eexists; split; eauto; tauto|apply IH; auto].
      * apply CcErr. apply TE. auto.
    + inversion H as [|? ? ? ? ? ? ? ? T B|? ? ? ? ? ? ? ? T B|? ? ? ? ? ? ? T]; subst.
      * apply TV in T as [v [E V]]. eapply EvIfTrue; eauto; [intros ->; assert (true = false) by tauto; discriminate|apply eval_let0; auto].
      * apply TV in T as [v [E V]]. replace v with VFalse in E by (symmetry; tauto). eapply EvIfFalse; eauto. apply IH. auto.
      * apply EvIfErr. apply TE. auto.
Qed.
Lemma case_meaning lit prim t : lit OTrue = VTrue -> lit OFalse = VFalse -> forall r s c cls els x s',
  eval prim t r s (ELet [([Id "tmp"], c)] [cc_code lit cls els]) x s' <-> case_rule prim t r s c cls els x s'.
Proof.
  intros LT LF r s c cls els x s'. rewrite eval_let1. split.
  - intros [[v [s1 [E Q]]]|[z [-> E]]]; [|apply CaseErr; auto]. inversion Q; subst. eapply CaseRun; eauto. apply (clauses_meaning lit); auto.
  - intros H. inversion H as [v s1 ? ? E Q|y s1 E]; subst; [left|right; eauto]. exists v, s1. split; auto. apply EsLast. apply clauses_meaning; auto.
Qed.
Definition case_scope (xf : xforms) : Prop :=
  provides xf "case" case_tr /\ provides xf "let" let_tr /\ provides xf "case/else" case_else_tr /\ provides xf "case/test" case_test_tr /\ unused xf "tmp" /\ unused xf "equal?".
Theorem C56_case evalx lit xf rb v c cl l cls els ec :
  lit OTrue = VTrue -> lit OFalse = VFalse -> case_scope xf ->
  compiles evalx lit xf rb v c -> case_ok evalx lit xf (cl :: l) cls -> compiles_body evalx lit xf els ec ->
  exists k, compiles evalx lit xf rb (form "case" (v :: map case_obj (cl :: l) ++ [form "else" els])) k /\
    forall prim t r s x s', eval prim t r s k x s' <-> case_rule prim t r s c cls ec x s'.
Proof.
  intros LT LF [PC [PL [PE [PT [UT UE]]]]] C H B. exists (ELet [([Id "tmp"], c)] [cc_code lit cls ec]). split; [|intros; apply case_meaning; auto].
  unfold form at 1. eapply macro_step with (e' := olist [sym "let"; olist [olist [sym "tmp"; v]]; form "case/else" (sym "tmp" :: map case_obj (cl :: l) ++ [form "else" els])]); [exact PC|apply let_kw; simpl; tauto| |].
  - unfold case_tr. rewrite <- olist_cons, to_olist.
    assert (NE := body_nonempty _ _ _ _ _ B). destruct els as [|e els]; [congruence|].
    assert (CE : case_clauses [form "else" (e :: els)] = Some [(None, e :: els)]).
    { cbn [case_clauses]. unfold case_clause, form. rewrite <- olist_cons, to_olist. reflexivity. }
    rewrite (case_clauses_app _ _ _ _ (case_clauses_plain _ _ _ _ _ H) CE). cbn [map app].
    set (z := map case_obj l ++ [form "else" (e :: els)]). set (w := map (fun c => (Some (fst c), snd c)) l ++ [(None, e :: els)]).
    assert (PW : plain_clauses ((Some (fst cl), snd cl) :: w) = false).
    { unfold w, plain_clauses. cbn [forallb fst]. rewrite forallb_app. simpl. rewrite andb_false_r. reflexivity. }
    rewrite PW. unfold w. change ((Some (fst cl), snd cl) :: map (fun c => (Some (fst c), snd c)) l ++ [(None, e :: els)]) with (map (fun c : list obj * list obj => (Some (fst c), snd c)) (cl :: l) ++ [(None, e :: els)]).
    rewrite rev_app_distr. cbn [rev app]. replace (plain_clauses (rev (map (fun c : list obj * list obj => (Some (fst c), snd c)) (cl :: l)))) with true by (rewrite <- map_rev, plain_map; reflexivity). reflexivity.
  - change (olist [olist [sym "tmp"; v]]) with (bindings [sym "tmp"] [v]). rewrite olist_cons.
    eapply macro_step with (e' := OPair (sym "let-values") (OPair (binding_obj (combine [sym "tmp"] [v])) (olist [form "case/else" (sym "tmp" :: map case_obj (cl :: l) ++ [form "else" els])]))); [exact PL|apply let_kw; simpl; tauto|reflexivity|].
    apply (compiles_let evalx lit xf rb "let-values" [sym "tmp"] [v] [Id "tmp"] [c] [form "case/else" (sym "tmp" :: map case_obj (cl :: l) ++ [form "else" els])] [cc_code lit cls ec]); simpl; auto.
    + constructor; [intros []|constructor].
    + apply compiles_body_one; [apply (else_compiles evalx lit xf PE PT UT UE (cl :: l) cls els ec); auto|]. inversion H; subst. exact Logic.I.
Qed.
Theorem C56_case_without_else evalx lit xf rb v c cl l cls :
  lit OTrue = VTrue -> lit OFalse = VFalse -> case_scope xf -> unused xf "void" ->
  compiles evalx lit xf rb v c -> case_ok evalx lit xf (cl :: l) cls ->
  exists k, compiles evalx lit xf rb (form "case" (v :: map case_obj (cl :: l))) k /\
    forall prim t r s x s', eval prim t r s k x s' <-> case_rule prim t r s c cls [void_call] x s'.
Proof.
  intros LT LF SC UV C H.
  assert (B : compiles_body evalx lit xf [olist [sym "void"]] [void_call]) by (apply compiles_body_one; [apply compiles_void; auto|discriminate]).
  destruct (C56_case evalx lit xf rb v c cl l cls _ _ LT LF SC C H B) as [k [K M]]. exists k. split; auto. destruct SC as [PC _].
  unfold form. eapply macro_step; [exact PC|apply let_kw; simpl; tauto| |exact K].
  unfold case_tr. rewrite <- olist_cons, to_olist. rewrite (case_clauses_plain _ _ _ _ _ H). cbn [map]. change ((Some (fst cl), snd cl) :: map (fun c => (Some (fst c), snd c)) l) with (map (fun c : list obj * list obj => (Some (fst c), snd c)) (cl :: l)).
  rewrite plain_map. destruct cl as [ks es]. reflexivity.
Qed.

(** ** define

    A header is a name or, for a procedure that returns a procedure, a header
    followed by parameters. *)
Inductive header : obj -> obj -> list obj -> Prop :=
| HdName n : header (sym n) (sym n) []
| HdMore h n l fm : header h n l -> header (OPair h fm) n (l ++ [fm]).
Fixpoint nest (l : list obj) (e : obj) : obj := match l with [] => e | fm :: r => olist [sym "lambda"; fm; nest r e] end.
Lemma nest_last l fm e : nest (l ++ [fm]) e = nest l (olist [sym "lambda"; fm; e]).
Proof. induction l; simpl; auto. rewrite IHl. reflexivity. Qed.
Definition def_tr : tr := define_tr "define" "define-values".
Lemma def_step h fm os : os <> [] -> def_tr (form "define" (OPair h fm :: os)) = Some (form "define" [h; OPair (sym "lambda") (OPair fm (olist os))]).
Proof. intros NE. destruct os as [|o os]; [congruence|]. unfold def_tr, define_tr, form. rewrite <- olist_cons, to_olist. reflexivity. Qed.
Lemma def_name n e : def_tr (form "define" [sym n; e]) = Some (olist [sym "define-values"; olist [sym n]; e]).
Proof. reflexivity. Qed.
(** At the top level of a module or program *)
Lemma top_step xf n q fn e' f r : provides xf n fn -> ~ In n all_keywords -> fn (OPair (sym n) q) = Some e' ->
  expand_top f e' xf = XOk r -> expand_top (S f) (OPair (sym n) q) xf = XOk r.
Proof.
  intros [sc [X M]] K F E. assert (N : forall k, In k all_keywords -> is_kw k (sym n) = false).
  { intros k I. apply is_kw_false. intros E'. apply sym_inj in E'. congruence. }
  cbn [expand_top]. rewrite !N by (unfold all_keywords, expr_keywords; simpl; tauto). cbn [orb]. unfold sym at 1. cbn [lookup_xform]. rewrite X. change (OSym (s2b n)) with (sym n). rewrite F, M. exact E.
Qed.
Lemma def_kw : ~ In "define"%string all_keywords.
Proof. unfold all_keywords, expr_keywords; simpl; intuition discriminate. Qed.
Lemma define_top_expr xf h n l e : provides xf "define" def_tr -> header h n l ->
  exists f, expand_top f (form "define" [h; e]) xf = XOk (olist [sym "define-values"; olist [n]; nest l e], xf).
Proof.
  intros PR H. revert e. induction H as [n|h n l fm H IH]; intros e.
  - exists 2. eapply top_step; [exact PR|apply def_kw|apply def_name|]. reflexivity.
  - destruct (IH (olist [sym "lambda"; fm; e])) as [f F]. exists (S f). rewrite nest_last. eapply top_step; [exact PR|apply def_kw|apply (def_step h fm [e]); discriminate|exact F].
Qed.
Theorem C56_define_top xf n h l fm e os :
  provides xf "define" def_tr -> header h n l -> os <> [] ->
  (exists f, expand_top f (form "define" [n; e]) xf = XOk (olist [sym "define-values"; olist [n]; e], xf)) /\
  (exists f, expand_top f (form "define" (OPair h fm :: os)) xf = XOk (olist [sym "define-values"; olist [n]; nest l (OPair (sym "lambda") (OPair fm (olist os)))], xf)).
Proof.
  intros PR H NE. assert (HN : exists m, n = sym m) by (clear -H; induction H; eauto). destruct HN as [m ->]. split.
  - apply (define_top_expr xf (sym m) (sym m) [] e PR). constructor.
  - destruct (define_top_expr xf h (sym m) l (OPair (sym "lambda") (OPair fm (olist os))) PR H) as [f F]. exists (S f).
    eapply top_step; [exact PR|apply def_kw|apply def_step; auto|exact F].
Qed.
(** In a body: a definition of the body (C57) *)
Lemma macro_expands evalx xf rb n q fn e' o : provides xf n fn -> ~ In n all_keywords -> fn (OPair (sym n) q) = Some e' ->
  expands evalx xf rb e' o -> expands evalx xf rb (OPair (sym n) q) o.
Proof.
  intros [sc [X M]] K F [f E]. exists (S f). rewrite expand_expr_S. cbv zeta.
  assert (N : forall k, In k all_keywords -> is_kw k (sym n) = false).
  { intros k I. apply is_kw_false. intros E'. apply sym_inj in E'. congruence. }
  rewrite !N by (unfold all_keywords, expr_keywords; simpl; tauto). cbn [self_eval orb]. unfold sym at 1. cbn [lookup_xform]. rewrite X.
  change (OSym (s2b n)) with (sym n). rewrite F, M. exact E.
Qed.
Fixpoint nest_code (l : list formals) (c : expr) : expr := match l with [] => c | p :: r => ELam p [nest_code r c] end.
Lemma compiles_lam evalx lit xf rb fm params os cs : pformals fm = POk params -> compiles_body evalx lit xf os cs ->
  compiles evalx lit xf rb (OPair (sym "lambda") (OPair fm (olist os))) (ELam params cs).
Proof.
  intros PF B. assert (NE := body_nonempty _ _ _ _ _ B). destruct B as [f [os' [E [g P]]]]. exists (S f), (OPair (sym "lambda") (OPair fm (olist os'))). split.
  - rewrite expand_expr_S. cbv zeta. kwred. unfold check_clause. rewrite to_olist. destruct os; [congruence|]. rewrite E. reflexivity.
  - exists (S g). change (parse lit (S g) (OPair (sym "lambda") (OPair fm (olist os')))) with (do fm <- pformals fm; do es <- ploop (parse lit g) (olist os'); POk (ELam fm es)).
    rewrite PF. cbn [pbind]. rewrite P. reflexivity.
Qed.
Lemma define_item evalx xf h n l e o : provides xf "define" def_tr -> header h n l ->
  expands evalx xf false (olist [sym "define-values"; olist [n]; nest l e]) o -> expands evalx xf false (form "define" [h; e]) o.
Proof.
  intros PR H. revert e. induction H as [n|h n l fm H IH]; intros e E.
  - eapply macro_expands; [exact PR|apply def_kw|apply def_name|exact E].
  - rewrite nest_last in E. eapply macro_expands; [exact PR|apply def_kw|apply (def_step h fm [e]); discriminate|]. apply IH. exact E.
Qed.
Theorem C56_define_variable evalx lit xf n e c :
  provides xf "define" def_tr -> compiles evalx lit xf true e c -> items evalx lit xf (form "define" [sym n; e]) [IDef [Id n] c].
Proof.
  intros PR C. apply ItDef with (ids := [sym n]) (rhs := e); auto.
  - apply (define_item evalx xf (sym n) (sym n) [] e _ PR); [constructor|]. exists 1. reflexivity.
  - constructor; [|constructor]. unfold sym, pident, s2b. rewrite string_of_list_ascii_of_string. reflexivity.
Qed.
Theorem C56_define_procedure evalx lit xf h n l ps fm params os cs :
  provides xf "define" def_tr -> header h (sym n) l -> Forall2 (fun f p => pformals f = POk p) l ps -> pformals fm = POk params ->
  compiles_body evalx lit xf os cs ->
  items evalx lit xf (form "define" (OPair h fm :: os)) [IDef [Id n] (nest_code ps (ELam params cs))].
Proof.
  intros PR H F PF B. assert (NE := body_nonempty _ _ _ _ _ B).
  apply ItDef with (ids := [sym n]) (rhs := nest l (OPair (sym "lambda") (OPair fm (olist os)))).
  - eapply macro_expands; [exact PR|apply def_kw|apply def_step; auto|]. apply (define_item evalx xf h (sym n) l _ _ PR H). exists 1. reflexivity.
  - constructor; [|constructor]. unfold sym, pident, s2b. rewrite string_of_list_ascii_of_string. reflexivity.
  - clear H. assert (X : forall rb, compiles evalx lit xf rb (nest l (OPair (sym "lambda") (OPair fm (olist os)))) (nest_code ps (ELam params cs))); [|apply X].
    induction F as [|f p l ps E _ IH]; intros rb; [apply compiles_lam; auto|]. cbn [nest nest_code]. apply (compiles_lam evalx lit xf rb f p [nest l (OPair (sym "lambda") (OPair fm (olist os)))]); auto.
    apply compiles_body_one; [apply IH|]. destruct ps; exact Logic.I.
Qed.

(** ** The scope of a macro

    Using a macro brings the macros its definition can see into scope for its
    parts (those under names the user does not have): the theorems above apply
    from there on. *)
Lemma merge_keeps n x : forall new xs, xassoc n xs = Some x -> xassoc n (merge xs new) = Some x.
Proof.
  induction new as [|[m y] new IH]; intros xs X; auto. cbn [merge]. destruct (xassoc m xs) eqn:M; apply IH; auto.
  cbn [xassoc]. destruct (name_dec n m); auto. congruence.
Qed.
Lemma merge_has n y : forall new xs, In (n, y) new -> xassoc n (merge xs new) <> None.
Proof.
  induction new as [|[m z] new IH]; intros xs []; cbn [merge].
  - injection H as -> ->. destruct (xassoc n xs) as [w|] eqn:W; [rewrite (merge_keeps _ _ _ _ W); discriminate|]. rewrite (merge_keeps n y); [discriminate|]. cbn [xassoc]. destruct (name_dec n n); congruence.
  - destruct (xassoc m xs); apply IH; auto.
Qed.
Lemma merge_nothing : forall new xs, (forall n y, In (n, y) new -> xassoc n xs <> None) -> merge xs new = xs.
Proof.
  induction new as [|[m z] new IH]; intros xs H; auto. cbn [merge]. destruct (xassoc m xs) eqn:M; [|exfalso; apply (H m z); [left|]; auto]. apply IH. intros n y I. apply (H n y). right. auto.
Qed.
Theorem C56_scope_entry evalx lit xf rb n fn sc parts c :
  xassoc (s2b n) xf = Some (Xf fn sc) -> ~ In n all_keywords ->
  provides (merge xf sc) n fn /\
  (compiles evalx lit (merge xf sc) rb (form n parts) c <-> compiles evalx lit xf rb (form n parts) c).
Proof.
  intros X K. assert (X' := merge_keeps _ _ sc _ X). assert (M : merge (merge xf sc) sc = merge xf sc) by (apply merge_nothing; intros; eapply merge_has; eauto).
  split; [exists sc; auto|].
  assert (N : forall k, In k all_keywords -> is_kw k (sym n) = false).
  { intros k I. apply is_kw_false. intros E'. apply sym_inj in E'. congruence. }
  assert (EQ : forall f, expand_expr evalx f (merge xf sc) rb (form n parts) = expand_expr evalx f xf rb (form n parts)).
  { intros [|f]; [reflexivity|]. unfold form. rewrite !expand_expr_S. cbv zeta. rewrite !N by (unfold all_keywords, expr_keywords; simpl; tauto). cbn [self_eval orb]. change (lookup_xform (sym n) (merge xf sc)) with (xassoc (s2b n) (merge xf sc)). change (lookup_xform (sym n) xf) with (xassoc (s2b n) xf). rewrite X, X', M. reflexivity. }
  split; intros [f [o [E P]]]; exists f, o; split; auto; [rewrite <- EQ|rewrite EQ]; auto.
Qed.
(** What a form compiles to is unique, so the meanings above are the only ones. *)
Theorem C56_one_meaning evalx lit xf rb o a b : compiles evalx lit xf rb o a -> compiles evalx lit xf rb o b -> a = b.
Proof. apply compiles_det. Qed.

(** ** A concrete scope *)
Definition lit1 (o : obj) : val := match o with OFix z => VFix z | OTrue => VTrue | _ => VFalse end.
Definition exported : xforms := map (fun p => (s2b (fst p), Xf (snd p) []))
  [("and", and_tr); ("or", or_tr); ("cond", cond_tr); ("when", when_tr); ("unless", unless_tr); ("let", let_tr); ("let*", let_star_tr);
   ("letrec", letrec_tr); ("define", def_tr); ("do", do_tr)]%string.
Definition own : xforms := (s2b "case/else", Xf case_else_tr []) :: (s2b "case/test", Xf case_test_tr []) :: exported.
(** The user's scope: the exported forms; case brings its helpers. *)
Definition std : xforms := (s2b "case", Xf case_tr own) :: exported.
Example C56_scope : provides std "and" and_tr /\ provides std "or" or_tr /\ provides std "cond" cond_tr /\ provides std "when" when_tr /\ provides std "unless" unless_tr /\
  provides std "let" let_tr /\ provides std "let*" let_star_tr /\ provides std "letrec" letrec_tr /\ provides std "define" def_tr /\ provides std "do" do_tr /\
  unused std "or-t" /\ unused std "void" /\ unused std "loop" /\ xassoc (s2b "case") std = Some (Xf case_tr own) /\ case_scope (merge std own).
Proof.
  repeat split; try (exists []; split; reflexivity). exists own. split; reflexivity.
Qed.
(** [(cond [(and a b) (let* ([x 1] [y x]) y)] [else (or a 2)])] meets the
    hypotheses, part by part. *)
Example C56_parts evalx : let c := compiles evalx lit1 std true in
  (exists k, c (form "and" [sym "a"; sym "b"]) k) /\
  (exists k, c (form "let*" [bindings [sym "x"; sym "y"] [OFix 1; sym "x"]; sym "y"]) k) /\
  (exists k, c (form "or" [sym "a"; OFix 2]) k) /\
  (exists k, c (form "let" [sym "again"; bindings [sym "x"] [OFix 1]; form "again" [sym "x"]]) k) /\
  (exists k, c (form "do" [do_bindings [sym "x"] [OFix 1] [sym "x"]; olist [sym "a"; OFix 1]; sym "b"]) k) /\
  (exists k, c (form "case" (sym "a" :: map case_obj [([OFix 1; OFix 2], [sym "b"])])) k) /\
  exists cl, cond_ok evalx lit1 std true
    [olist [form "and" [sym "a"; sym "b"]; form "let*" [bindings [sym "x"; sym "y"] [OFix 1; sym "x"]; sym "y"]]; form "else" [form "or" [sym "a"; OFix 2]]] cl.
Proof.
  cbv zeta. destruct C56_scope as [PA [PO [PC [PW [PU [PL [PS [PR [PD [PDo [U1 [U2 [U3 [XC SC]]]]]]]]]]]]]].
  assert (V : forall xf rb n, unused xf n -> compiles evalx lit1 xf rb (sym n) (EVar (Id n))) by (intros; apply compiles_var; auto).
  assert (L : forall xf rb z, compiles evalx lit1 xf rb (OFix z) (EConst (VFix z))) by (intros; apply (compiles_lit evalx lit1 xf rb (OFix z)); exact Logic.I).
  assert (B1 : forall xf n, unused xf n -> compiles_body evalx lit1 xf [sym n] [EVar (Id n)]) by (intros; apply compiles_body_one; [auto|exact Logic.I]).
  Ltac fin0 V B1 := try (repeat constructor; fail); try (apply V; reflexivity); try (apply B1; reflexivity); try (constructor; [apply V; reflexivity|constructor]).
  Ltac fin := match goal with V : forall xf rb n, unused xf n -> _, B1 : forall xf n, unused xf n -> _ |- _ => fin0 V B1 end.
  assert (HA : exists k, compiles evalx lit1 std true (form "and" [sym "a"; sym "b"]) k).
  { destruct (C56_and evalx lit1 std true [sym "a"; sym "b"] [EVar (Id "a"); EVar (Id "b")] eq_refl eq_refl PA) as [k [K _]]; eauto. }
  assert (HS : exists k, compiles evalx lit1 std true (form "let*" [bindings [sym "x"; sym "y"] [OFix 1; sym "x"]; sym "y"]) k).
  { destruct (C56_let_star evalx lit1 std true (sym "x") (OFix 1) [sym "y"] [sym "x"] (Id "x") [Id "y"] (EConst (VFix 1)) [EVar (Id "x")] [sym "y"] [EVar (Id "y")] PS) as [k [K _]]; eauto; fin. }
  assert (HO : exists k, compiles evalx lit1 std true (form "or" [sym "a"; OFix 2]) k).
  { destruct (C56_or_partial evalx lit1 std true (sym "a") [OFix 2] (EVar (Id "a")) [EConst (VFix 2)] eq_refl PO U1) as [k [K _]]; eauto. }
  split; [exact HA|]. split; [exact HS|]. split; [exact HO|]. split; [|split; [|split]].
  - destruct (C56_named_let evalx lit1 std true "again" [sym "x"] [OFix 1] [Id "x"] [EConst (VFix 1)] [form "again" [sym "x"]] [EApp (EVar (Id "again")) [EVar (Id "x")]] PL eq_refl) as [k [K _]]; eauto; fin.
    + unfold reserved, all_keywords, expr_keywords; simpl; intuition discriminate.
    + apply compiles_body_one; [|discriminate]. apply compiles_app; [reflexivity|unfold reserved, all_keywords, expr_keywords; simpl; intuition discriminate|]. constructor; [apply V; reflexivity|constructor].
  - destruct (C56_do evalx lit1 std true [sym "x"] [OFix 1] [sym "x"] [Id "x"] [EConst (VFix 1)] [EVar (Id "x")] (sym "a") (EVar (Id "a")) [OFix 1] [EConst (VFix 1)] [sym "b"] [EVar (Id "b")] PDo PL U3) as [k [K _]]; eauto; fin. discriminate.
  - destruct (C56_case_without_else evalx lit1 (merge std own) true (sym "a") (EVar (Id "a")) ([OFix 1; OFix 2], [sym "b"]) [] [([EConst (VFix 1); EConst (VFix 2)], [EVar (Id "b")])] eq_refl eq_refl SC eq_refl) as [k [K _]].
    + apply V. reflexivity.
    + apply (KoCons evalx lit1 (merge std own) [OFix 1; OFix 2] [sym "b"] [EVar (Id "b")] [] []); [apply B1; reflexivity|constructor].
    + exists k. apply (C56_scope_entry evalx lit1 std true "case" case_tr own); auto. apply let_kw. simpl. tauto.
  - destruct HA as [ka KA], HS as [ks KS], HO as [ko KO]. exists [(Some ka, [ks]); (None, [ko])]. apply CoTest; auto; [discriminate|exists ks; auto|].
    apply CoElse. exists ko. auto.
Qed.
(** [(define ((add a) b) a)] *)
Example C56_define_case evalx :
  items evalx lit1 std (form "define" [olist [olist [sym "add"; sym "a"]; sym "b"]; sym "a"])
    [IDef [Id "add"] (ELam (Formals [Id "a"] None) [ELam (Formals [Id "b"] None) [EVar (Id "a")]])].
Proof.
  apply (C56_define_procedure evalx lit1 std (olist [sym "add"; sym "a"]) "add" [olist [sym "a"]] [Formals [Id "a"] None] (olist [sym "b"]) (Formals [Id "b"] None) [sym "a"] [EVar (Id "a")]).
  - exists []. split; reflexivity.
  - apply (HdMore (sym "add") (sym "add") [] (olist [sym "a"])). constructor.
  - repeat constructor.
  - reflexivity.
  - apply compiles_body_one; [apply compiles_var; reflexivity|exact Logic.I].
Qed.

(** ** Findings

    [gives e P]: in the scope [std], whatever the primitives, the expression [e]
    runs to one value, and [P] holds of it. *)
Definition gives (e : obj) (P : val -> Prop) : Prop :=
  exists c, (forall evalx, compiles evalx lit1 std true e c) /\ forall prim s, exists v s', eval prim true [] s c (RVals [v]) s' /\ P v.
Ltac code k := exists k; split; [intros evalx; exists 30; eexists; split; [reflexivity|exists 30; reflexivity]|intros prim [h p c g]].
Ltac val1 := eapply EvLet; [eapply EbCons with (vs := [_]); [constructor|reflexivity|apply EbNil]|].
Lemma nth_end (c : list val) v : nth_error (c ++ [v]) (List.length c) = Some v.
Proof. rewrite nth_error_app2, Nat.sub_diag by lia. reflexivity. Qed.
Lemma nth_set_new (c : list val) v w h p g : nth_error (cells_of (set_cell (List.length c) v (Store h p (c ++ [w]) g))) (List.length c) = Some v.
Proof. cbn [set_cell cells_of]. induction c; simpl; auto. Qed.
(** A variable named or-t is captured by or: (let ([or-t 5]) (or #f or-t)). *)
Theorem C56_or_captures_refuted :
  gives (form "let" [bindings [sym "or-t"] [OFix 5]; form "or" [OFalse; sym "or-t"]]) (fun v => v = VFalse).
Proof.
  code (ELet [([Id "or-t"], EConst (VFix 5))] [ELet [([Id "or-t"], EConst VFalse)] [EIf (EVar (Id "or-t")) (EVar (Id "or-t")) (EVar (Id "or-t"))]]).
  exists VFalse. eexists. split; [|reflexivity]. val1. apply EsLast. val1. apply EsLast.
  assert (E : forall x, eval prim true ((Id "or-t", List.length (c ++ [VFix 5])) :: x) (Store h p ((c ++ [VFix 5]) ++ [VFalse]) g) (EVar (Id "or-t")) (RVals [VFalse]) (Store h p ((c ++ [VFix 5]) ++ [VFalse]) g)).
  { intros x. eapply EvLocal; [reflexivity| |discriminate]. cbn [cells_of]. rewrite nth_error_app2, Nat.sub_diag by lia. reflexivity. }
  eapply EvIfFalse; apply E.
Qed.
(** A variable named tmp is captured by case: (let ([tmp 1]) (case 2 [() 0] [else tmp])). *)
Theorem C56_case_captures_refuted :
  gives (form "let" [bindings [sym "tmp"] [OFix 1]; form "case" [OFix 2; olist [ONull; OFix 0]; form "else" [sym "tmp"]]]) (fun v => v = VFix 2).
Proof.
  code (ELet [([Id "tmp"], EConst (VFix 1))] [ELet [([Id "tmp"], EConst (VFix 2))] [EIf (EConst VFalse) (ELet [] [EConst (VFix 0)]) (ELet [] [EVar (Id "tmp")])]]).
  exists (VFix 2). eexists. split; [|reflexivity]. val1. apply EsLast. val1. apply EsLast.
  eapply EvIfFalse; [constructor|]. apply eval_let0. apply EsLast. eapply EvLocal; [reflexivity| |discriminate]. cbn [cells_of add_cells]. rewrite nth_error_app2, Nat.sub_diag by lia. reflexivity.
Qed.
(** The expressions of a named let see the name of the loop:
    (let ([f 1]) (let f ([x f]) x)) is a procedure. *)
Theorem C56_named_let_scope_refuted :
  gives (form "let" [bindings [sym "f"] [OFix 1]; form "let" [sym "f"; bindings [sym "x"] [sym "f"]; sym "x"]]) (fun v => v <> VFix 1).
Proof.
  code (ELet [([Id "f"], EConst (VFix 1))] [ELetrec [([Id "f"], ELam (Formals [Id "x"] None) [EVar (Id "x")])] [EApp (EVar (Id "f")) [EVar (Id "f")]]]).
  do 2 eexists. split; [|shelve]. val1. apply EsLast.
  eapply (proj2 (eval_letrec_rule prim true _ _ [Id "f"] [_] _ _ _ eq_refl)). eapply LrRun; [eapply InNext; [apply E1Val; eapply EvLam; reflexivity|apply InDone]|].
  assert (V : forall y t r s l v, lookup_env y r = Some l -> nth_error (cells_of s) l = Some v -> v <> VUnbound -> eval1 prim t r s (EVar y) (inl v) s) by (intros; apply E1Val; eapply EvLocal; eauto).
  set (s1 := set_cell _ _ _).
  assert (N1 : nth_error (cells_of s1) (List.length (c ++ [VFix 1])) = Some (VPtr (List.length h))) by (apply (nth_set_new (c ++ [VFix 1]))).
  apply EsLast. eapply EvApp; [eapply V; [reflexivity|exact N1|discriminate]|eapply EaCons; [eapply V; [reflexivity|exact N1|discriminate]|constructor]|].
  eapply ApClo; [cbn; rewrite Nat.eqb_refl; reflexivity|reflexivity|reflexivity|apply EsLast; eapply EvLocal; [reflexivity| |]].
  - apply (nth_end (cells_of s1)).
  - discriminate.
  Unshelve. discriminate.
Qed.
(** The last expressions of do see a variable named loop:
    (let ([loop 1]) (do ([x 2 x]) (#t loop))) is a procedure. *)
Theorem C56_do_captures_refuted :
  gives (form "let" [bindings [sym "loop"] [OFix 1]; form "do" [do_bindings [sym "x"] [OFix 2] [sym "x"]; olist [OTrue; sym "loop"]]]) (fun v => v <> VFix 1).
Proof.
  code (ELet [([Id "loop"], EConst (VFix 1))] [ELetrec [([Id "loop"], ELam (Formals [Id "x"] None) [EIf (EConst VTrue) (EBegin [EVar (Id "loop")]) (EBegin [EApp (EVar (Id "loop")) [EVar (Id "x")]])])] [EApp (EVar (Id "loop")) [EConst (VFix 2)]]]).
  do 2 eexists. split; [|shelve]. val1. apply EsLast.
  eapply (proj2 (eval_letrec_rule prim true _ _ [Id "loop"] [_] _ _ _ eq_refl)). eapply LrRun; [eapply InNext; [apply E1Val; eapply EvLam; reflexivity|apply InDone]|].
  assert (V : forall y t r s l v, lookup_env y r = Some l -> nth_error (cells_of s) l = Some v -> v <> VUnbound -> eval1 prim t r s (EVar y) (inl v) s) by (intros; apply E1Val; eapply EvLocal; eauto).
  set (s1 := set_cell _ _ _).
  assert (N1 : nth_error (cells_of s1) (List.length (c ++ [VFix 1])) = Some (VPtr (List.length h))) by (apply (nth_set_new (c ++ [VFix 1]))).
  apply EsLast. eapply EvApp; [eapply V; [reflexivity|exact N1|discriminate]|eapply EaCons; [apply E1Val; constructor|constructor]|].
  eapply ApClo; [cbn; rewrite Nat.eqb_refl; reflexivity|reflexivity|reflexivity|apply EsLast; eapply EvIfTrue; [constructor|discriminate|apply EvBegin, EsLast; eapply EvLocal; [reflexivity| |]]].
  - cbn [cells_of]. rewrite nth_error_app1; [exact N1|]. apply nth_error_Some. unfold s1 in *. cbn [cells_of add_cells repeat List.length] in *. rewrite N1. discriminate.
  - discriminate.
  Unshelve. discriminate.
Qed.
(** A variable named void changes the result of when, unless, cond and case:
    (let ([void (lambda () 1)]) (when #f 0)). *)
Theorem C56_when_void_refuted :
  gives (form "let" [bindings [sym "void"] [olist [sym "lambda"; ONull; OFix 1]]; form "when" [OFalse; OFix 0]]) (fun v => v = VFix 1).
Proof.
  code (ELet [([Id "void"], ELam (Formals [] None) [EConst (VFix 1)])] [EIf (EConst VFalse) (ELet [] [EConst (VFix 0)]) void_call]).
  exists (VFix 1). eexists. split; [|reflexivity].
  eapply EvLet; [eapply EbCons with (vs := [_]); [eapply EvLam; reflexivity|reflexivity|apply EbNil]|]. apply EsLast. eapply EvIfFalse; [constructor|].
  eapply EvApp; [apply E1Val; eapply EvLocal; [reflexivity| |]|constructor|].
  - cbn [cells_of add_cells app]. rewrite nth_error_app2, Nat.sub_diag by lia. reflexivity.
  - discriminate.
  - eapply ApClo; [cbn; rewrite Nat.eqb_refl; reflexivity|reflexivity|reflexivity|apply EsLast; constructor].
Qed.
(** A cond clause needs a body: (cond [1]) is refused. *)
Theorem C56_cond_test_only_refuted evalx f rb : expand_expr evalx (S f) std rb (form "cond" [olist [OFix 1]]) = XErr.
Proof. reflexivity. Qed.
Print Assumptions C56_and.
Print Assumptions C56_or_partial.
Print Assumptions C56_cond.
Print Assumptions C56_when.
Print Assumptions C56_unless.
Print Assumptions C56_let.
Print Assumptions C56_letrec.
Print Assumptions C56_let_star.
Print Assumptions C56_named_let.
Print Assumptions C56_do.
Print Assumptions C56_case.
Print Assumptions C56_case_without_else.
Print Assumptions C56_define_top.
Print Assumptions C56_define_variable.
Print Assumptions C56_define_procedure.
Print Assumptions C56_scope_entry.
Print Assumptions C56_one_meaning.
Print Assumptions C56_or_captures_refuted.
Print Assumptions C56_case_captures_refuted.
Print Assumptions C56_named_let_scope_refuted.
Print Assumptions C56_do_captures_refuted.
Print Assumptions C56_when_void_refuted.
Print Assumptions C56_cond_test_only_refuted.
