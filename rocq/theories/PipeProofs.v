(** From program text to output: what a program denotes and what it displays, and lemmas. *)
From Coq Require Import ZArith NArith Bool Ascii String List Arith Lia.
From Verif Require Import Base Heap HeapM Ast FreeVars Code CodeProofs Compile CompRel CompProofs SlotProofs CompThm Sem Reader Check CheckThm
  Opt OptRel OptSim OptProofs OptFun OptProg OptTerm OptThm Vm Sim SimLemmas SimProofs SimThm Pipe.
From Verif Require ReaderProofs ReaderThm.
Import ListNotations.
Local Open Scope list_scope.
Local Open Scope nat_scope.
Local Notation extends := HeapM.extends.

(** ** Specification: the expression that a datum in the heap denotes *)
Definition vsym (k : string) : val := VSym (s2b k).
(** A symbol is the identifier of that name. *)
Definition id_is (v : val) (x : ident) : Prop :=
  match v with VSym n => x = Id (string_of_list_ascii n) | VGensym _ i => x = Gen (N.to_nat i) | _ => False end.
(** Data that denote themselves. *)
Definition self_evaluating (h : heap) (v : val) : Prop :=
  match v with
  | VTrue | VFalse | VFix _ | VChar _ | VEmptyVec => True
  | VPtr l => match nth_error h l with Some (CStr _) | Some (CBox _) | Some (CVec _) => True | _ => False end
  | _ => False
  end.
(** [(x ...)], [(x ... . y)] or [y] *)
Inductive params_are (h : heap) : val -> formals -> Prop :=
| PaNull : params_are h VNull (Formals [] None)
| PaRest v x : id_is v x -> params_are h v (Formals [] (Some x))
| PaCons l a d x xs r :
    nth_error h l = Some (CPair a d) -> id_is a x -> params_are h d (Formals xs r) -> params_are h (VPtr l) (Formals (x :: xs) r).
(** Symbols that make a list a form of their own. *)
Definition form_names : list string :=
  keywords ++ ["values"; "call-with-values"; "#%make-unbound"; "#%mv-call"; "#%mv-let"; "#%mv-values"]%string.

Inductive denotes (h : heap) : val -> expr -> Prop :=
| DnVar v x : id_is v x -> denotes h v (EVar x)
| DnSelf v : self_evaluating h v -> denotes h v (EConst v)
| DnQuote v k d : In k ["quote"; "quote-syntax"]%string -> list_at h v [vsym k; d] -> denotes h v (EConst d)
| DnIf v a b c x y z :
    list_at h v [vsym "if"; a; b; c] -> denotes h a x -> denotes h b y -> denotes h c z -> denotes h v (EIf x y z)
| DnSet v i x a e : list_at h v [vsym "set!"; i; a] -> id_is i x -> denotes h a e -> denotes h v (ESet x e)
| DnDefine v l is xs a e :
    list_at h v [vsym "define-values"; l; a] -> list_at h l is -> Forall2 id_is is xs -> denotes h a e -> denotes h v (EDefine xs e)
| DnLet v l bs xs body es :
    list_at h v (vsym "let-values" :: l :: body) -> list_at h l bs -> denote_bindings h bs xs -> denote_all h body es -> denotes h v (ELet xs es)
| DnLetrec v l bs xs body es :
    list_at h v (vsym "letrec-values" :: l :: body) -> list_at h l bs -> denote_bindings h bs xs -> denote_all h body es -> denotes h v (ELetrec xs es)
| DnLambda v p fm body es : list_at h v (vsym "lambda" :: p :: body) -> params_are h p fm -> denote_all h body es -> denotes h v (ELam fm es)
| DnCase v cls ecls : list_at h v (vsym "case-lambda" :: cls) -> denote_clauses h cls ecls -> denotes h v (ECase ecls)
| DnBegin v body es : list_at h v (vsym "begin" :: body) -> denote_all h body es -> denotes h v (EBegin es)
| DnValues v args es : list_at h v (vsym "values" :: args) -> denote_all h args es -> denotes h v (EValues es)
| DnCwv v p c more x y : list_at h v (vsym "call-with-values" :: p :: c :: more) -> denotes h p x -> denotes h c y -> denotes h v (ECwv x y)
| DnApp v f args e es :
    list_at h v (f :: args) -> (forall k, In k form_names -> f <> vsym k) -> denotes h f e -> denote_all h args es -> denotes h v (EApp e es)
(** Two forms of the compiler's own that the checker lets through; the theorems exclude them. *)
| DnUnbound v args : list_at h v (vsym "#%make-unbound" :: args) -> denotes h v EUnbound
| DnMvValues v args es : list_at h v (vsym "#%mv-values" :: args) -> denote_all h args es -> denotes h v (EMvValues es)
with denote_all (h : heap) : list val -> list expr -> Prop :=
| DaNil : denote_all h [] []
| DaCons v vs e es : denotes h v e -> denote_all h vs es -> denote_all h (v :: vs) (e :: es)
with denote_bindings (h : heap) : list val -> list (list ident * expr) -> Prop :=
| DbNil : denote_bindings h [] []
| DbCons b l is xs a e bs q :
    list_at h b [l; a] -> list_at h l is -> Forall2 id_is is xs -> denotes h a e -> denote_bindings h bs q ->
    denote_bindings h (b :: bs) ((xs, e) :: q)
with denote_clauses (h : heap) : list val -> list clause -> Prop :=
| DcNil : denote_clauses h [] []
| DcCons c p d body fm es cs q :
    pair_at h c = Some (p, d) -> params_are h p fm -> list_at h d body -> denote_all h body es -> denote_clauses h cs q ->
    denote_clauses h (c :: cs) ((fm, es) :: q).
Scheme denotes_mi := Minimality for denotes Sort Prop
  with denote_all_mi := Minimality for denote_all Sort Prop
  with denote_bindings_mi := Minimality for denote_bindings Sort Prop
  with denote_clauses_mi := Minimality for denote_clauses Sort Prop.
Combined Scheme denotes_ind' from denotes_mi, denote_all_mi, denote_bindings_mi, denote_clauses_mi.

(** Data that can be written down: everything but records, syntax objects and the like. *)
Inductive datum : obj -> Prop :=
| DtAtom o : match o with ONull | OTrue | OFalse | OSym _ | OFix _ | OChar _ | OStr _ | OEmptyVec => True | _ => False end -> datum o
| DtPair a d : datum a -> datum d -> datum (OPair a d)
| DtVec l : Forall datum l -> datum (OVec l)
| DtBox o : datum o -> datum (OBox o).

(** ** Specification: program texts

    [os] are the data of the text, in order; it ends at its end, or where the reader reports
    an error. *)
Inductive program_text : list obj -> list byte -> ending -> Prop :=
| PtEnd t : ReaderProofs.text no_object t [] -> program_text [] t EndOfText
| PtError t y : read_fails t y -> program_text [] t (BadText y)
| PtForm o t k os en : ReaderProofs.text o t k -> datum o -> program_text os k en -> program_text (o :: os) (t ++ k) en.

(** ** Specification: what a program displays *)
Definition shows (h : heap) (vs : list val) (t : list byte) : Prop :=
  match vs with
  | [VVoid] => t = []
  | _ => exists ts, Forall2 (line h) vs ts /\ t = List.concat ts
  end.
Inductive displays (prim : N -> list val -> heap -> option presult) : store -> list expr -> list byte -> bool -> Prop :=
| DiNil s : displays prim s [] [] false
| DiVal s e es vs s1 out rest b :
    eval prim true [] s e (RVals vs) s1 -> shows (heap_of s1) vs out -> displays prim s1 es rest b -> displays prim s (e :: es) (out ++ rest) b
| DiErr s e es y s1 : eval prim true [] s e (Sem.RErr y) s1 -> count_err y = false -> displays prim s (e :: es) [] true.

(** ** Accepted data denote expressions *)
Lemma datum_list h : forall l v, datum_at h v (olist l) -> exists vs, list_at h v vs /\ Forall2 (datum_at h) vs l.
Proof.
  induction l as [|o l IH]; intros v D; inversion D; subst.
  - exists []. split; constructor.
  - match goal with X : datum_at h _ (olist l) |- _ => destruct (IH _ X) as [vs [L F]] end. eexists. split; [econstructor; eauto|constructor; eauto].
Qed.
Lemma datum_sym h v k : datum_at h v (sym k) -> v = vsym k.
Proof. unfold sym. intros D. inversion D. reflexivity. Qed.
Lemma datum_symbol h v o : datum_at h v o -> symbol o -> exists x, id_is v x.
Proof. intros D [[n ->]|[n [i ->]]]; inversion D; subst; simpl; eauto. Qed.
Lemma datum_symbols h vs l : Forall2 (datum_at h) vs l -> (forall x, In x l -> symbol x) -> exists xs, Forall2 id_is vs xs.
Proof.
  induction 1 as [|v o vs l D F IH]; intros HS; [exists []; constructor|]. destruct (datum_symbol h v o D) as [x X]; [apply HS; left; auto|].
  destruct IH as [xs XS]; [intros; apply HS; right; auto|]. exists (x :: xs). constructor; auto.
Qed.
Lemma datum_params h p : parameters p -> forall v, datum_at h v p -> exists fm, params_are h v fm.
Proof.
  induction 1 as [|x S|x p S P IH]; intros v D.
  - inversion D; subst. eexists. constructor.
  - destruct (datum_symbol h v x D S) as [i X]. eexists. constructor. exact X.
  - inversion D; subst. destruct (datum_symbol h a x) as [i X]; auto. destruct (IH d) as [[xs r] Q]; auto. eexists. eapply PaCons; eauto.
Qed.
Lemma datum_all h vs l : Forall2 (datum_at h) vs l -> (forall e, In e l -> forall v, datum_at h v e -> exists x, denotes h v x) ->
  exists es, denote_all h vs es.
Proof.
  induction 1 as [|v o vs l D F IH]; intros HS; [exists []; constructor|]. destruct (HS o (or_introl eq_refl) v D) as [x X].
  destruct IH as [xs XS]; [intros; eapply HS; [right|]; eauto|]. exists (x :: xs). constructor; auto.
Qed.
Lemma datum_pair h v a d : datum_at h v (OPair a d) -> exists l x y, v = VPtr l /\ nth_error h l = Some (CPair x y) /\ datum_at h x a /\ datum_at h y d.
Proof. inversion 1; subst. eauto 8. Qed.
Lemma atom_denotes h v o : datum_at h v o -> atom o -> exists e, denotes h v e.
Proof.
  intros D A. destruct o; simpl in A; try contradiction; inversion D; subst; try (eexists; apply DnSelf; simpl; auto; fail);
    try (eexists; apply DnVar; simpl; eauto; fail);
    eexists; apply DnSelf; simpl; match goal with N : nth_error h _ = _ |- _ => rewrite N end; auto.
Qed.

Ltac two D vs L F := apply datum_list in D; destruct D as [vs [L F]].
Lemma core_denotes h o : core true o -> forall v, datum_at h v o -> exists e, denotes h v e.
Proof.
  induction 1 as [o A|k d K|a b c _ IHa _ IHb _ IHc|x e S _ IH|ids e S _ IH|k bs body K SB _ IHb NE _ IHe|p body P NE _ IH|cls PC _ IH|es NE _ IH|f args OP WH _ IHf _ IHa];
    intros v D.
  - eapply atom_denotes; eauto.
  - two D dv L F. inversion F as [|v1 ? vs1 ? F1 F2]; subst. inversion F2 as [|v2 ? vs2 ? F3 F4]; subst. inversion F4; subst.
    apply datum_sym in F1. subst. eexists. eapply DnQuote; eauto.
  - two D dv L F. repeat match goal with X : Forall2 _ _ (_ :: _) |- _ => inversion X; clear X; subst end. match goal with X : Forall2 _ _ [] |- _ => inversion X; subst end.
    match goal with X : datum_at h _ (sym _) |- _ => apply datum_sym in X; subst end.
    edestruct IHa as [x X]; eauto. edestruct IHb as [y Y]; eauto. edestruct IHc as [z Z]; eauto. eexists. eapply DnIf; eauto.
  - two D dv L F. repeat match goal with X : Forall2 _ _ (_ :: _) |- _ => inversion X; clear X; subst end. match goal with X : Forall2 _ _ [] |- _ => inversion X; subst end.
    match goal with X : datum_at h _ (sym _) |- _ => apply datum_sym in X; subst end.
    edestruct IH as [y Y]; eauto. edestruct datum_symbol as [i I]; [|exact S|]; eauto. eexists. eapply DnSet; eauto.
  - two D dv L F. repeat match goal with X : Forall2 _ _ (_ :: _) |- _ => inversion X; clear X; subst end. match goal with X : Forall2 _ _ [] |- _ => inversion X; subst end.
    match goal with X : datum_at h _ (sym _) |- _ => apply datum_sym in X; subst end.
    match goal with X : datum_at h _ (olist ids) |- _ => apply datum_list in X; destruct X as [iv [L1 F1]] end. destruct (datum_symbols _ _ _ F1 S) as [xs XS].
    edestruct IH as [y Y]; eauto. eexists. eapply DnDefine; eauto.
  - destruct (datum_pair _ _ _ _ D) as [l [a [r [-> [N [A R]]]]]]. apply datum_sym in A. subst a.
    destruct (datum_pair _ _ _ _ R) as [l2 [b [q [-> [N2 [B Q]]]]]]. two B bv LB FB. two Q qv LQ FQ.
    destruct (datum_all _ _ _ FQ IHe) as [es ES].
    assert (BS : exists xs, denote_bindings h bv xs).
    { clear - FB SB IHb. revert bv FB SB IHb. induction bs as [|[ids e] bs IH]; intros bv FB SB IHb; inversion FB as [|w ? ws ? W1 W2]; subst; [exists []; constructor|].
      cbn [fst snd] in W1. apply (datum_list h [olist ids; e]) in W1. destruct W1 as [us [LU FU]].
      repeat match goal with X : Forall2 _ _ (_ :: _) |- _ => inversion X; clear X; subst end. match goal with X : Forall2 _ _ [] |- _ => inversion X; subst end.
      match goal with X : datum_at h _ (olist ids) |- _ => apply datum_list in X; destruct X as [iv [L1 F1]] end. destruct (datum_symbols _ _ _ F1) as [xs XS]; [eapply SB; left; eauto|].
      edestruct (IHb (ids, e) (or_introl eq_refl)) as [z Z]; eauto.
      destruct (IH ws) as [q Q]; auto; [intros; eapply SB; [right|]; eauto|intros; eapply IHb; [right|]; eauto|]. eexists. eapply DbCons; eauto. }
    destruct BS as [xs XS]. simpl in K. destruct K as [<-|[<-|[]]]; eexists.
    + eapply (DnLet h _ b bv xs qv es); auto. econstructor; eauto. econstructor; eauto.
    + eapply (DnLetrec h _ b bv xs qv es); auto. econstructor; eauto. econstructor; eauto.
  - destruct (datum_pair _ _ _ _ D) as [l [a [r [-> [N [A R]]]]]]. apply datum_sym in A. subst a.
    destruct (datum_pair _ _ _ _ R) as [l2 [b [q [-> [N2 [B Q]]]]]]. two Q qv LQ FQ. destruct (datum_all _ _ _ FQ IH) as [es ES].
    destruct (datum_params _ _ P _ B) as [fm FM]. eexists. eapply (DnLambda h _ b fm qv es); auto. econstructor; eauto. econstructor; eauto.
  - destruct (datum_pair _ _ _ _ D) as [l [a [r [-> [N [A R]]]]]]. apply datum_sym in A. subst a. two R rv LR FR.
    assert (CS : exists q, denote_clauses h rv q).
    { clear - FR PC IH. revert rv FR PC IH. induction cls as [|[p body] cls IHc]; intros rv FR PC IH; inversion FR as [|w ? ws ? W1 W2]; subst; [exists []; constructor|].
      cbn [fst snd] in W1. destruct (datum_pair _ _ _ _ W1) as [m [u [t [-> [N [U T]]]]]]. two T tv LT FT.
      destruct (datum_all _ _ _ FT) as [es ES]; [apply (IH (p, body)); left; auto|]. destruct (PC (p, body) (or_introl eq_refl)) as [PP _].
      destruct (datum_params _ _ PP _ U) as [fm FM].
      destruct (IHc ws W2 (fun c I => PC c (or_intror I)) (fun c I => IH c (or_intror I))) as [q Q].
      eexists. eapply DcCons; eauto. apply pair_at_cons; eauto. }
    destruct CS as [q Q]. eexists. eapply (DnCase h _ rv q); auto. econstructor; eauto.
  - destruct (datum_pair _ _ _ _ D) as [l [a [r [-> [N [A R]]]]]]. apply datum_sym in A. subst a. two R rv LR FR.
    destruct (datum_all _ _ _ FR IH) as [xs XS]. eexists. eapply (DnBegin h _ rv xs); auto. econstructor; eauto.
  - destruct (datum_pair _ _ _ _ D) as [l [a [r [-> [N [A R]]]]]]. assert (R0 := R). two R rv LR FR.
    destruct (datum_all _ _ _ FR IHa) as [xs XS]. specialize (WH eq_refl). destruct WH as [W1 [W2 W3]].
    assert (AT : list_at h (VPtr l) (a :: rv)) by (econstructor; eauto).
    assert (SY : forall k, a = vsym k -> f = sym k) by (intros k ->; inversion A; reflexivity).
    assert (DEC : forall k, {a = vsym k} + {a <> vsym k}).
    { intros k. destruct a; try (right; discriminate). destruct (list_eq_dec Ascii.ascii_dec name (s2b k)) as [->|NE]; [left; auto|right; intros E; injection E; auto]. }
    destruct (DEC "values"%string) as [->|N1]; [eexists; eapply DnValues; eauto|].
    destruct (DEC "#%make-unbound"%string) as [->|N4]; [eexists; eapply DnUnbound; eauto|].
    destruct (DEC "#%mv-values"%string) as [->|N5]; [eexists; eapply DnMvValues; eauto|].
    destruct (DEC "call-with-values"%string) as [->|N6].
    { assert (LL := W1 (SY _ eq_refl)). destruct args as [|p [|c more]]; simpl in LL; try lia. inversion FR as [|vp ? ? ? FP F2]; subst. inversion F2 as [|vc ? ? ? FC F3]; subst.
      destruct (IHa p (or_introl eq_refl) _ FP) as [ep EP]. destruct (IHa c (or_intror (or_introl eq_refl)) _ FC) as [ec EC].
      eexists. eapply DnCwv; eauto. }
    destruct (IHf eq_refl a A) as [e E]. eexists. eapply DnApp; eauto.
    intros k K Q. unfold form_names in K. apply in_app_or in K. destruct K as [K|K].
    + apply (OP k K). apply SY. exact Q.
    + simpl in K. destruct K as [<-|[<-|[<-|[<-|[<-|[<-|[]]]]]]]; try contradiction; [apply W2, SY, Q|apply W3, SY, Q].
Qed.

(** ** Taking apart gives what is denoted *)
Lemma hloop_ok {A} h (g : val -> pres A) l vs : list_at h l vs -> forall xs f, Forall2 (fun v a => g v = POk a) vs xs -> List.length vs < f -> hloop h g f l = POk xs.
Proof.
  induction 1 as [|l a d vs N L IH]; intros xs f F LT; destruct f as [|f]; simpl in LT; try lia; inversion F; subst; [reflexivity|].
  cbn [hloop]. unfold hcar, hcdr. rewrite (pair_at_cons _ _ _ _ N). cbn [pbind]. match goal with X : g a = _ |- _ => rewrite X end. cbn [pbind].
  erewrite IH; eauto; [reflexivity|lia].
Qed.
Lemma hident_ok v x : id_is v x -> hident v = POk x.
Proof. destruct v; simpl; try contradiction; intros ->; reflexivity. Qed.
Lemma hidents_ok is xs : Forall2 id_is is xs -> Forall2 (fun v a => hident v = POk a) is xs.
Proof. induction 1; constructor; auto using hident_ok. Qed.
Lemma hformals_ok h v fm : params_are h v fm -> exists f0, forall f, f0 <= f -> hformals h f v = POk fm.
Proof.
  induction 1 as [|v x I|l a d x xs r N I P [f0 IH]].
  - exists 1. intros [|f] L; [lia|]. reflexivity.
  - exists 1. intros [|f] L; [lia|]. assert (H := hident_ok _ _ I). destruct v; simpl in I; try contradiction; cbn [hformals pair_at]; rewrite H; reflexivity.
  - exists (S f0). intros [|f] L; [lia|]. cbn [hformals]. rewrite (pair_at_cons _ _ _ _ N), (hident_ok _ _ I). cbn [pbind]. rewrite IH by lia. reflexivity.
Qed.
Lemma list_pair h v a q : list_at h v (a :: q) -> exists d, pair_at h v = Some (a, d) /\ list_at h d q.
Proof. intros L. destruct (list_at_cons_inv _ _ _ _ L) as [l [d [_ [_ [D P]]]]]. eauto. Qed.
Lemma vkw_spec k v : vkw k v = true -> v = vsym k.
Proof. destruct v; simpl; try discriminate. destruct (list_eq_dec Ascii.ascii_dec name (s2b k)) as [->|]; [reflexivity|discriminate]. Qed.
Lemma vkw_not k v : v <> vsym k -> vkw k v = false.
Proof. intros N. destruct (vkw k v) eqn:E; auto. apply vkw_spec in E. contradiction. Qed.
Ltac kws := repeat match goal with |- context [vkw ?a (vsym ?b)] => let r := eval vm_compute in (vkw a (vsym b)) in change (vkw a (vsym b)) with r end; cbv beta iota zeta; cbn [orb].
(** The next element of a form. *)
Ltac elem L := let d := fresh "d" in let P := fresh "P" in apply list_pair in L; destruct L as [d [P L]].

Definition parses (h : heap) (v : val) (e : expr) : Prop := exists f0, forall f, f0 <= f -> hparse h f v = POk e.
Lemma denotes_parses h :
  (forall v e, denotes h v e -> parses h v e) /\
  (forall vs es, denote_all h vs es -> exists f0, forall f, f0 <= f -> Forall2 (fun v e => hparse h f v = POk e) vs es) /\
  (forall bs q, denote_bindings h bs q -> exists f0, forall f, f0 <= f ->
     Forall2 (fun b p => (do i <- hcar h b; do ids <- hloop h hident f i; do q <- hcdr h b; do e <- hcar h q; do x <- hparse h f e; POk (ids, x)) = POk p) bs q) /\
  (forall cs q, denote_clauses h cs q -> exists f0, forall f, f0 <= f ->
     Forall2 (fun c p => (do a <- hcar h c; do fm <- hformals h f a; do b <- hcdr h c; do es <- hloop h (hparse h f) f b; POk (fm, es)) = POk p) cs q).
Proof.
  apply denotes_ind'.
  - intros v x I. exists 1. intros [|f] L; [lia|]. assert (H := hident_ok _ _ I). destruct v; simpl in I; try contradiction; cbn [hparse pair_at]; rewrite H; reflexivity.
  - intros v S. exists 1. intros [|f] L; [lia|]. destruct v; simpl in S; try contradiction; cbn [hparse pair_at]; try reflexivity.
    destruct (nth_error h l) as [[]|] eqn:N; try contradiction; reflexivity.
  - intros v k d K LA. exists 1. intros [|f] L; [lia|]. elem LA. elem LA. cbn [hparse]. rewrite P. unfold hcar. rewrite P0.
    simpl in K. destruct K as [<-|[<-|[]]]; kws; reflexivity.
  - intros v a b c x y z LA _ [fa A] _ [fb B] _ [fc C]. exists (S (fa + fb + fc)). intros [|f] L; [lia|]. elem LA. elem LA. elem LA. elem LA. cbn [hparse]. rewrite P. kws.
    unfold hcar, hcdr. rewrite P0. cbn [pbind]. rewrite A by lia. cbn [pbind]. rewrite P1. cbn [pbind]. rewrite B by lia. cbn [pbind]. rewrite P2. cbn [pbind]. rewrite C by lia. reflexivity.
  - intros v i x a e LA I _ [fa A]. exists (S fa). intros [|f] L; [lia|]. elem LA. elem LA. elem LA. cbn [hparse]. rewrite P. kws.
    unfold hcar, hcdr. rewrite P0. cbn [pbind]. rewrite (hident_ok _ _ I). cbn [pbind]. rewrite P1. cbn [pbind]. rewrite A by lia. reflexivity.
  - intros v l is xs a e LA LI F _ [fa A]. exists (S (fa + S (List.length is))). intros [|f] L; [lia|]. elem LA. elem LA. elem LA. cbn [hparse]. rewrite P. kws.
    unfold hcar at 1. rewrite P0. cbn [pbind]. rewrite (hloop_ok _ _ _ _ LI _ f (hidents_ok _ _ F)) by lia. unfold hcar, hcdr. cbn [pbind]. rewrite P0. cbn [pbind]. rewrite P1. cbn [pbind]. rewrite A by lia. reflexivity.
  - intros v l bs xs body es LA LB _ [fb B] _ [fa A]. exists (S (fa + fb + S (List.length bs) + S (List.length body))). intros [|f] L; [lia|]. elem LA. elem LA. cbn [hparse]. rewrite P. kws.
    unfold hcar at 1. rewrite P0. cbn [pbind]. rewrite (hloop_ok _ _ _ _ LB xs f) by (try apply B; lia). cbn [pbind]. unfold hcdr at 1. rewrite P0. cbn [pbind].
    rewrite (hloop_ok _ _ _ _ LA es f) by (try apply A; lia). reflexivity.
  - intros v l bs xs body es LA LB _ [fb B] _ [fa A]. exists (S (fa + fb + S (List.length bs) + S (List.length body))). intros [|f] L; [lia|]. elem LA. elem LA. cbn [hparse]. rewrite P. kws.
    unfold hcar at 1. rewrite P0. cbn [pbind]. rewrite (hloop_ok _ _ _ _ LB xs f) by (try apply B; lia). cbn [pbind]. unfold hcdr at 1. rewrite P0. cbn [pbind].
    rewrite (hloop_ok _ _ _ _ LA es f) by (try apply A; lia). reflexivity.
  - intros v p fm body es LA PA _ [fa A]. destruct (hformals_ok _ _ _ PA) as [fp FP]. exists (S (fa + fp + S (List.length body))). intros [|f] L; [lia|]. elem LA. elem LA. cbn [hparse]. rewrite P. kws.
    unfold hcar at 1. rewrite P0. cbn [pbind]. rewrite FP by lia. cbn [pbind]. unfold hcdr at 1. rewrite P0. cbn [pbind].
    rewrite (hloop_ok _ _ _ _ LA es f) by (try apply A; lia). reflexivity.
  - intros v cls q LA _ [fa A]. exists (S (fa + S (List.length cls))). intros [|f] L; [lia|]. elem LA. cbn [hparse]. rewrite P. kws.
    rewrite (hloop_ok _ _ _ _ LA q f) by (try apply A; lia). reflexivity.
  - intros v body es LA _ [fa A]. exists (S (fa + S (List.length body))). intros [|f] L; [lia|]. elem LA. cbn [hparse]. rewrite P. kws.
    rewrite (hloop_ok _ _ _ _ LA es f) by (try apply A; lia). reflexivity.
  - intros v body es LA _ [fa A]. exists (S (fa + S (List.length body))). intros [|f] L; [lia|]. elem LA. cbn [hparse]. rewrite P. kws.
    rewrite (hloop_ok _ _ _ _ LA es f) by (try apply A; lia). reflexivity.
  - intros v p c more x y LA _ [fa A] _ [fb B]. exists (S (fa + fb)). intros [|f] L; [lia|]. elem LA. elem LA. elem LA. cbn [hparse]. rewrite P. kws.
    unfold hcar, hcdr. rewrite P0. cbn [pbind]. rewrite A by lia. cbn [pbind]. rewrite P1. cbn [pbind]. rewrite B by lia. reflexivity.
  - intros v g args e es LA NK _ [fg G] _ [fa A]. exists (S (fa + fg + S (List.length args))). intros [|f] L; [lia|]. elem LA. cbn [hparse]. rewrite P.
    repeat rewrite (vkw_not _ g) by (apply NK; cbv; tauto). cbn [orb]. rewrite G by lia. cbn [pbind].
    rewrite (hloop_ok _ _ _ _ LA es f) by (try apply A; lia). reflexivity.
  - intros v args LA. exists 1. intros [|f] L; [lia|]. elem LA. cbn [hparse]. rewrite P. kws. reflexivity.
  - intros v body es LA _ [fa A]. exists (S (fa + S (List.length body))). intros [|f] L; [lia|]. elem LA. cbn [hparse]. rewrite P. kws.
    rewrite (hloop_ok _ _ _ _ LA es f) by (try apply A; lia). reflexivity.
  - exists 0. constructor.
  - intros v vs e es _ [fa A] _ [fb B]. exists (fa + fb). intros f L. constructor; [apply A; lia|apply B; lia].
  - exists 0. constructor.
  - intros b l is xs a e bs q LA LI F _ [fa A] _ [fb B]. exists (fa + fb + S (List.length is)). intros f L. elem LA. elem LA. constructor; [|apply B; lia].
    unfold hcar at 1. rewrite P. cbn [pbind]. rewrite (hloop_ok _ _ _ _ LI _ f (hidents_ok _ _ F)) by lia. unfold hcar, hcdr. cbn [pbind]. rewrite P. cbn [pbind]. rewrite P0. cbn [pbind]. rewrite A by lia. reflexivity.
  - exists 0. constructor.
  - intros c p d body fm es cs q PA FM LB _ [fa A] _ [fb B]. destruct (hformals_ok _ _ _ FM) as [fp FP]. exists (fa + fb + fp + S (List.length body)). intros f L. constructor; [|apply B; lia].
    unfold hcar at 1. rewrite PA. cbn [pbind]. rewrite FP by lia. cbn [pbind]. unfold hcdr at 1. rewrite PA. cbn [pbind].
    rewrite (hloop_ok _ _ _ _ LB es f) by (try apply A; lia). reflexivity.
Qed.

(** ** Taking apart has one result *)
Lemma hloop_mono {A} h (g g' : val -> pres A) : (forall v a, g v = POk a -> g' v = POk a) ->
  forall f f' l r, f <= f' -> hloop h g f l = POk r -> hloop h g' f' l = POk r.
Proof.
  intros G. induction f as [|f IH]; intros f' l r L H; [discriminate|]. destruct f' as [|f']; [lia|]. cbn [hloop] in *.
  assert (K : (do a <- hcar h l; do x <- g a; do d <- hcdr h l; do q <- hloop h g f d; POk (x :: q)) = POk r ->
              (do a <- hcar h l; do x <- g' a; do d <- hcdr h l; do q <- hloop h g' f' d; POk (x :: q)) = POk r).
  { intros X. apply pbind_ok in X. destruct X as [a [E1 X]]. apply pbind_ok in X. destruct X as [x [E2 X]]. apply pbind_ok in X. destruct X as [d [E3 X]].
    apply pbind_ok in X. destruct X as [q [E4 X]]. rewrite E1. cbn [pbind]. rewrite (G _ _ E2). cbn [pbind]. rewrite E3. cbn [pbind]. rewrite (IH f' d q) by (auto; lia). exact X. }
  destruct l; auto.
Qed.
Lemma hformals_mono h : forall f f' v r, f <= f' -> hformals h f v = POk r -> hformals h f' v = POk r.
Proof.
  induction f as [|f IH]; intros f' v r L H; [discriminate|]. destruct f' as [|f']; [lia|]. cbn [hformals] in *.
  destruct v; auto. destruct (pair_at h (VPtr l)) as [[a d]|]; auto.
  apply pbind_ok in H. destruct H as [x [E1 H]]. apply pbind_ok in H. destruct H as [fm [E2 H]]. rewrite E1. cbn [pbind]. rewrite (IH f' d fm) by (auto; lia). exact H.
Qed.
Ltac open_do H := repeat (let a := fresh "a" in let E := fresh "E" in apply pbind_ok in H; destruct H as [a [E H]]).
Ltac same G GL FM GI GB GC L := let H := fresh "H" in intros H; open_do H;
  repeat match goal with
  | E : hparse _ _ _ = POk _ |- _ => apply G in E
  | E : hformals _ _ _ = POk _ |- _ => apply (FM _ _ L) in E
  end;
  repeat match goal with E : hloop _ _ _ _ = POk _ |- _ => first [apply (GL _ _ L) in E|apply (GI _ _ L) in E|apply (GB _ _ L) in E|apply (GC _ _ L) in E] end;
  repeat (match goal with E : ?x = POk _ |- context [pbind ?x _] => rewrite E end; cbn [pbind]); exact H.
Lemma hparse_mono1 h f : forall v e, hparse h f v = POk e -> hparse h (S f) v = POk e.
Proof.
  induction f as [|f IH]; intros v e; [discriminate|].
  remember (S f) as f1 eqn:Ef. assert (G : forall o e, hparse h f o = POk e -> hparse h f1 o = POk e) by (subst f1; exact IH).
  assert (L : f <= f1) by lia. rewrite Ef at 1. clear Ef IH. cbn [hparse].
  assert (GL := hloop_mono h (hparse h f) (hparse h f1) G f f1). assert (FM := hformals_mono h f f1).
  assert (GI := hloop_mono h hident hident (fun _ _ E => E) f f1).
  set (bp := fun b => do i <- hcar h b; do ids <- hloop h hident f i; do q <- hcdr h b; do e <- hcar h q; do x <- hparse h f e; POk (ids, x)).
  set (bp1 := fun b => do i <- hcar h b; do ids <- hloop h hident f1 i; do q <- hcdr h b; do e <- hcar h q; do x <- hparse h f1 e; POk (ids, x)).
  set (cp := fun c => do a <- hcar h c; do fm <- hformals h f a; do b <- hcdr h c; do es <- hloop h (hparse h f) f b; POk (fm, es)).
  set (cp1 := fun c => do a <- hcar h c; do fm <- hformals h f1 a; do b <- hcdr h c; do es <- hloop h (hparse h f1) f1 b; POk (fm, es)).
  assert (B : forall c a, bp c = POk a -> bp1 c = POk a).
  { intros c a H. unfold bp in H. open_do H. unfold bp1. rewrite E. cbn [pbind]. rewrite (GI _ _ L E0). cbn [pbind]. rewrite E1. cbn [pbind]. rewrite E2. cbn [pbind]. rewrite (G _ _ E3). exact H. }
  assert (C : forall c a, cp c = POk a -> cp1 c = POk a).
  { intros c a H. unfold cp in H. open_do H. unfold cp1. rewrite E. cbn [pbind]. rewrite (FM _ _ L E0). cbn [pbind]. rewrite E1. cbn [pbind]. rewrite (GL _ _ L E2). exact H. }
  assert (GB := hloop_mono h bp bp1 B f f1). assert (GC := hloop_mono h cp cp1 C f f1). clearbody bp bp1 cp cp1. clear B C.
  destruct (pair_at h v) as [[hd q]|]; [|destruct v; auto].
  repeat match goal with |- (if ?b then _ else _) = _ -> _ => destruct b end; same G GL FM GI GB GC L.
Qed.
Lemma hparse_mono h f f' v e : f <= f' -> hparse h f v = POk e -> hparse h f' v = POk e.
Proof. intros L H. induction L as [|g L IH]; auto. apply hparse_mono1. exact IH. Qed.
Lemma hparse_fun h f f' v e e' : hparse h f v = POk e -> hparse h f' v = POk e' -> e = e'.
Proof. intros A B. apply (hparse_mono h f (f + f')) in A; [|lia]. apply (hparse_mono h f' (f + f')) in B; [|lia]. congruence. Qed.
Lemma denotes_fun h v e e' : denotes h v e -> denotes h v e' -> e = e'.
Proof. intros A B. destruct (proj1 (denotes_parses h) _ _ A) as [f F]. destruct (proj1 (denotes_parses h) _ _ B) as [g G]. eapply hparse_fun; [apply F|apply G]; eauto. Qed.

(** ** What the reader allocates *)
Fixpoint places (l : list obj) (h : heap) : list val * heap :=
  match l with [] => ([], h) | x :: q => let '(v, h1) := place x h in let '(vs, h2) := places q h1 in (v :: vs, h2) end.
Lemma place_vec l h : place (OVec l) h = let '(vs, h1) := places l h in alloc (CVec vs) h1.
Proof.
  cbn [place]. f_equal.
  match goal with |- (let '(_, _) := ?a in _) = _ => assert (E : a = places l h) end.
  { revert h. induction l as [|x q IH]; intros h; [reflexivity|]. cbn [places]. destruct (place x h) as [v h1]. rewrite IH. reflexivity. }
  rewrite E. reflexivity.
Qed.
Definition closed (h : heap) : Prop := Forall (closed_cell (List.length h)) h.
Lemma closed_val_le n m v : n <= m -> closed_val n v -> closed_val m v.
Proof. destruct v; simpl; auto. lia. Qed.
Lemma closed_cell_le n m c : n <= m -> closed_cell n c -> closed_cell m c.
Proof.
  intros L. destruct c; simpl; auto; intuition eauto using closed_val_le; eapply Forall_impl; try eassumption; intros; eapply closed_val_le; eauto.
Qed.
Lemma closed_snoc h c : closed h -> closed_cell (List.length h) c -> closed (h ++ [c]).
Proof.
  intros H C. unfold closed. rewrite app_length. simpl. apply Forall_app. split.
  - eapply Forall_impl; [|exact H]. intros. eapply closed_cell_le; [|eassumption]. lia.
  - constructor; auto. eapply closed_cell_le; [|eassumption]. lia.
Qed.
Lemma datum_ext h h' : extends h h' -> forall v o, datum_at h v o -> datum_at h' v o.
Proof.
  intros X. fix F 3. intros v o D. destruct D; try (constructor; fail).
  - eapply DaPair; [eapply HeapM.extends_nth; eauto|apply F; auto|apply F; auto].
  - eapply DaVec; [eapply HeapM.extends_nth; eauto|]. clear H. revert vs xs H0. fix G 3. intros vs xs D. destruct D; constructor; [apply F; auto|apply G; auto].
  - eapply DaStr. eapply HeapM.extends_nth; eauto.
  - eapply DaBox; [eapply HeapM.extends_nth; eauto|apply F; auto].
Qed.
Lemma data_ext h h' vs xs : extends h h' -> data_at h vs xs -> data_at h' vs xs.
Proof. intros X. induction 1; constructor; auto. eapply datum_ext; eauto. Qed.
Lemma nth_last {A} (h : list A) c : nth_error (h ++ [c]) (List.length h) = Some c.
Proof. rewrite nth_error_app2, Nat.sub_diag by lia. reflexivity. Qed.

Definition placed_ok (o : obj) : Prop := forall h v h1, place o h = (v, h1) -> closed h ->
  extends h h1 /\ closed h1 /\ closed_val (List.length h1) v /\ (datum o -> datum_at h1 v o).
Lemma places_ok l : Forall placed_ok l -> forall h vs h1, places l h = (vs, h1) -> closed h ->
  extends h h1 /\ closed h1 /\ Forall (closed_val (List.length h1)) vs /\ (Forall datum l -> data_at h1 vs l).
Proof.
  induction 1 as [|o l P F IH]; intros h vs h1 E C.
  - injection E as <- <-. split; [apply HeapM.extends_refl|]. split; auto. split; constructor.
  - cbn [places] in E. destruct (place o h) as [v h2] eqn:E1. destruct (places l h2) as [ws h3] eqn:E2. injection E as <- <-.
    destruct (P _ _ _ E1 C) as (X1 & C1 & V1 & D1). destruct (IH _ _ _ E2 C1) as (X2 & C2 & V2 & D2).
    split; [eapply HeapM.extends_trans; eauto|]. split; auto. split.
    + constructor; auto. eapply closed_val_le; [apply HeapM.extends_len; eauto|auto].
    + intros D. inversion D; subst. constructor; auto. eapply datum_ext; eauto.
Qed.
Lemma place_ok o : placed_ok o.
Proof.
  assert (IM : forall o v, (forall h, place o h = (v, h)) -> (forall n, closed_val n v) -> (forall h, datum_at h v o) -> placed_ok o).
  { intros o0 v0 P C D h v h1 E CH. rewrite P in E. injection E as <- <-. split; [apply HeapM.extends_refl|]. auto. }
  assert (OT : forall o, (forall h, place o h = alloc (COther 0) h) -> ~ datum o -> placed_ok o).
  { intros o0 P N h v h1 E C. rewrite P in E. injection E as <- <-. split; [apply HeapM.extends_snoc|]. split; [apply closed_snoc; simpl; auto|].
    split; [simpl; rewrite app_length; simpl; lia|]. intros D. contradiction. }
  assert (NM : forall o v, (forall h, place o h = (v, h)) -> (forall n, closed_val n v) -> ~ datum o -> placed_ok o).
  { intros o0 v0 P C N h v h1 E CH. rewrite P in E. injection E as <- <-. split; [apply HeapM.extends_refl|]. split; auto. split; auto. intros D. contradiction. }
  induction o using obj_ind_strong.
  1-7: eapply IM; [intros; reflexivity|simpl; auto|constructor].
  - intros h v h1 E C. injection E as <- <-. split; [apply HeapM.extends_snoc|]. split; [apply closed_snoc; simpl; auto|].
    split; [simpl; rewrite app_length; simpl; lia|]. intros _. apply DaStr, nth_last.
  - eapply IM; [intros; reflexivity|simpl; auto|constructor].
  - eapply IM; [intros; reflexivity|simpl; auto|constructor].
  - intros h v h1 E C. cbn [place] in E. destruct (place o1 h) as [va ha] eqn:E1. destruct (place o2 ha) as [vd hd] eqn:E2. injection E as <- <-.
    destruct (IHo1 _ _ _ E1 C) as (X1 & C1 & V1 & D1). destruct (IHo2 _ _ _ E2 C1) as (X2 & C2 & V2 & D2).
    split; [eapply HeapM.extends_trans; [exact X1|]; eapply HeapM.extends_trans; [exact X2|apply HeapM.extends_snoc]|].
    split; [apply closed_snoc; auto; split; auto; eapply closed_val_le; [apply HeapM.extends_len; exact X2|auto]|].
    split; [simpl; rewrite app_length; simpl; lia|]. intros D. inversion D as [? A| | |]; subst; [contradiction|].
    eapply DaPair; [apply nth_last| |]; eapply datum_ext; try (apply HeapM.extends_snoc); auto. eapply datum_ext; eauto.
  - eapply IM; [intros; reflexivity|simpl; auto|constructor].
  - intros h v h1 E C. rewrite place_vec in E. destruct (places l h) as [vs h2] eqn:E1. injection E as <- <-.
    destruct (places_ok _ H _ _ _ E1 C) as (X1 & C1 & V1 & D1). split; [eapply HeapM.extends_trans; [exact X1|apply HeapM.extends_snoc]|].
    split; [apply closed_snoc; auto|]. split; [simpl; rewrite app_length; simpl; lia|]. intros D. inversion D as [? A| | |]; subst; [contradiction|].
    eapply DaVec; [apply nth_last|]. eapply data_ext; [apply HeapM.extends_snoc|auto].
  - eapply NM; [intros; reflexivity|simpl; auto|]. intros D. inversion D; contradiction.
  - apply OT; [reflexivity|]. intros D. inversion D; contradiction.
  - intros h v h1 E C. cbn [place] in E. destruct (place o h) as [va ha] eqn:E1. injection E as <- <-.
    destruct (IHo _ _ _ E1 C) as (X1 & C1 & V1 & D1). split; [eapply HeapM.extends_trans; [exact X1|apply HeapM.extends_snoc]|].
    split; [apply closed_snoc; auto|]. split; [simpl; rewrite app_length; simpl; lia|]. intros D. inversion D as [? A| | |]; subst; [contradiction|].
    eapply DaBox; [apply nth_last|]. eapply datum_ext; [apply HeapM.extends_snoc|auto].
  - apply OT; [reflexivity|]. intros D. inversion D; contradiction.
  - apply OT; [reflexivity|]. intros D. inversion D; contradiction.
Qed.

(** ** Denotation does not depend on what is allocated later *)
Lemma params_ext h h' v fm : extends h h' -> params_are h v fm -> params_are h' v fm.
Proof. intros X. induction 1; [constructor|constructor; auto|econstructor; eauto; eapply HeapM.extends_nth; eauto]. Qed.
Lemma denotes_ext h h' : extends h h' ->
  (forall v e, denotes h v e -> denotes h' v e) /\ (forall vs es, denote_all h vs es -> denote_all h' vs es) /\
  (forall bs q, denote_bindings h bs q -> denote_bindings h' bs q) /\ (forall cs q, denote_clauses h cs q -> denote_clauses h' cs q).
Proof.
  intros X. assert (LX := fun v xs => list_at_ext h h' v xs X). apply denotes_ind'; intros; try (econstructor; eauto using params_ext; fail).
  - apply DnSelf. destruct v; simpl in *; auto. destruct (nth_error h l) eqn:N; [|contradiction]. rewrite (HeapM.extends_nth _ _ _ _ X N). auto.
  - econstructor; eauto using params_ext. eapply pair_at_kept; eauto using HeapM.extends_kept.
Qed.

(** ** Reading a program *)
Lemma text_reads o t k : ReaderProofs.text o t k -> reads (t ++ k) o k.
Proof. intros T. exact (proj1 ReaderProofs.complete _ _ _ T). Qed.
Lemma datum_object o : datum o -> o <> no_object.
Proof. intros D ->. inversion D. contradiction. Qed.
Lemma source_ok os t en : program_text os t en -> Forall (core true) os -> forall h, closed h ->
  forall vs h1, places os h = (vs, h1) ->
  exists es, source t h es h1 en /\ extends h h1 /\ closed h1 /\ Forall2 (datum_at h1) vs os /\ Forall2 (denotes h1) vs es.
Proof.
  induction 1 as [t T|t y R|o t k os en T D P IH]; intros F h C ws hw PS; cbn [places] in PS.
  - injection PS as <- <-. exists []. split; [apply SrcEnd with (k := []); rewrite <- (app_nil_r t); apply text_reads; auto|]. split; [apply HeapM.extends_refl|]. split; auto.
  - injection PS as <- <-. exists []. split; [apply SrcBadText; auto|]. split; [apply HeapM.extends_refl|]. split; auto.
  - inversion F as [|? ? K F']; subst. destruct (place o h) as [v h1] eqn:E. destruct (place_ok o _ _ _ E C) as (X1 & C1 & V1 & D1). specialize (D1 D).
    destruct (core_denotes h1 o K v D1) as [e DE]. destruct (proj1 (denotes_parses h1) _ _ DE) as [g G].
    destruct (C27_accepted_parses_partial o K) as [[f A] _].
    destruct (places os h1) as [vs h2] eqn:E2. injection PS as <- <-. destruct (IH F' h1 C1 vs h2 E2) as (es & S & X2 & C2 & DS & DN).
    exists (e :: es). split; [eapply SrcForm; eauto using text_reads, datum_object|]. split; [eapply HeapM.extends_trans; eauto|]. split; auto.
    split; constructor; auto; [eapply datum_ext; eauto|eapply (denotes_ext h1 h2); eauto].
Qed.
Lemma check_ends f g o : check f o = COk -> check g o = CBad -> False.
Proof. intros A B. assert (X := check_mono f (f + g) o ltac:(lia) ltac:(congruence)). assert (Y := check_mono g (f + g) o ltac:(lia) ltac:(congruence)). congruence. Qed.
Lemma source_fun t h es h1 en : source t h es h1 en -> forall es' h1' en', source t h es' h1' en' -> es' = es /\ h1' = h1 /\ en' = en.
Proof.
  assert (RD : forall s o k o' k', reads s o k -> reads s o' k' -> o' = o /\ k' = k) by (intros; edestruct ReaderThm.reads_det as [A B]; [exact H|exact H0|auto]).
  induction 1 as [t k h R|t o k h v h1 f g e es h2 en R NO CK PL PA S IH|t y h R|t o k h f R NO CK]; intros es' h1' en' X;
    inversion X as [t2 k2 ? R2|t2 o2 k2 ? v2 h2' f2 g2 e2 es2 h3 en2 R2 NO2 CK2 PL2 PA2 S2|t2 y2 ? R2|t2 o2 k2 ? f2 R2 NO2 CK2]; subst;
    try (exfalso; eapply ReaderThm.reads_fails; eauto; fail);
    try (destruct (RD _ _ _ _ _ R R2) as [? ?]; subst; try contradiction); auto.
  - rewrite PL in PL2. injection PL2 as <- <-. assert (e2 = e) by (eapply hparse_fun; eauto). subst. destruct (IH _ _ _ S2) as (-> & -> & ->). auto.
  - exfalso. eapply check_ends; [exact CK|exact CK2].
  - split; auto. split; auto. f_equal. destruct R as [f R], R2 as [g R2].
    assert (A := ReaderProofs.mono_object _ (Nat.max f g) _ _ R ltac:(discriminate) ltac:(lia)).
    assert (B := ReaderProofs.mono_object _ (Nat.max f g) _ _ R2 ltac:(discriminate) ltac:(lia)). congruence.
  - exfalso. eapply check_ends; [exact CK2|exact CK].
Qed.

(** Texts that go wrong at a datum that is no expression. *)
Inductive ill_text : list obj -> list byte -> Prop :=
| IllHere o t k : ReaderProofs.text o t k -> o <> no_object -> ~ core false o -> ill_text [] (t ++ k)
| IllAfter o t k os : ReaderProofs.text o t k -> datum o -> ill_text os k -> ill_text (o :: os) (t ++ k).
Lemma source_ill os t : ill_text os t -> Forall (core true) os -> forall h, closed h ->
  forall vs h1, places os h = (vs, h1) ->
  exists es, extends h h1 /\ closed h1 /\ Forall2 (datum_at h1) vs os /\ Forall2 (denotes h1) vs es /\
    forall es' h1' en', source t h es' h1' en' -> es' = es /\ h1' = h1 /\ en' = BadForm.
Proof.
  assert (RD : forall s o k o' k', reads s o k -> reads s o' k' -> o' = o /\ k' = k) by (intros; edestruct ReaderThm.reads_det as [A B]; [exact H|exact H0|auto]).
  induction 1 as [o t k T NO NC|o t k os T D P IH]; intros F h C ws hw PS; cbn [places] in PS; apply text_reads in T.
  - injection PS as <- <-. exists []. split; [apply HeapM.extends_refl|]. split; auto. split; [constructor|]. split; [constructor|]. intros es' h1' en' X.
    inversion X as [t2 k2 ? R2|t2 o2 k2 ? v2 h2' f2 g2 e2 es2 h3 en2 R2 NO2 CK2 PL2 PA2 S2|t2 y2 ? R2|t2 o2 k2 ? f2 R2 NO2 CK2]; subst; auto.
    + destruct (RD _ _ _ _ _ T R2) as [? ?]. subst. contradiction.
    + destruct (RD _ _ _ _ _ T R2) as [? ?]. subst. exfalso. apply NC, C27_checker_accepts_core. exists f2. auto.
    + exfalso. eapply ReaderThm.reads_fails; eauto.
  - inversion F as [|? ? K F']; subst. destruct (place o h) as [v h1] eqn:E. destruct (place_ok o _ _ _ E C) as (X1 & C1 & V1 & D1). specialize (D1 D).
    destruct (core_denotes h1 o K v D1) as [e DE]. destruct (proj1 (denotes_parses h1) _ _ DE) as [g G].
    destruct (C27_accepted_parses_partial o K) as [[f A] _].
    destruct (places os h1) as [vs h2] eqn:EP. injection PS as <- <-. destruct (IH F' h1 C1 vs h2 EP) as (es & X2 & C2 & DS & DN & U).
    exists (e :: es). split; [eapply HeapM.extends_trans; eauto|]. split; auto.
    split; [constructor; auto; eapply datum_ext; eauto|]. split; [constructor; auto; eapply (denotes_ext h1 h2); eauto|].
    intros es' h1' en' X. inversion X as [t2 k2 ? R2|t2 o2 k2 ? v2 h2' f2 g2 e2 es2 h3 en2 R2 NO2 CK2 PL2 PA2 S2|t2 y2 ? R2|t2 o2 k2 ? f2 R2 NO2 CK2]; subst;
      try (destruct (RD _ _ _ _ _ T R2) as [? ?]; subst).
    + exfalso. apply (datum_object _ D). reflexivity.
    + rewrite E in PL2. injection PL2 as <- <-. assert (e2 = e) by (eapply hparse_fun; [exact PA2|apply (G g); lia]). subst. destruct (U _ _ _ S2) as (-> & -> & ->). auto.
    + exfalso. eapply ReaderThm.reads_fails; eauto.
    + exfalso. eapply check_ends; [exact A|exact CK2].
Qed.

(** ** The same text is printed when addresses are renamed *)
Lemma datum_rel u r a b : hrel u r a b -> forall v o, datum_at a v o -> forall v', vrel u r v v' -> datum_at b v' o.
Proof.
  intros H. fix F 3. intros v o D v' R. destruct D; simpl in R; try (subst v'; constructor; fail);
    destruct (r l) as [l'|] eqn:L; try contradiction; subst v'; destruct (H _ _ L) as (c & c' & N & N' & C); rewrite N in H0; injection H0 as ->;
    destruct c'; simpl in C; try contradiction.
  - eapply DaPair; [exact N'|apply (F _ _ D1); apply C|apply (F _ _ D2); apply C].
  - eapply DaVec; [exact N'|]. clear N N' L. revert vs xs H1 xs0 C. fix G 3. intros vs xs D xs0 C. destruct D; inversion C; subst; constructor; [apply (F _ _ H0); auto|apply (G _ _ D); auto].
  - subst. eapply DaStr. exact N'.
  - eapply DaBox; [exact N'|apply (F _ _ D); auto].
Qed.
Lemma shows_rel u r a b vs vs' t : hrel u r a b -> vsrel u r vs vs' -> shows a vs t -> shows b vs' t.
Proof.
  intros H R S.
  assert (G : (exists ts, Forall2 (line a) vs ts /\ t = List.concat ts) -> exists ts, Forall2 (line b) vs' ts /\ t = List.concat ts).
  { intros [ts [F E]]. exists ts. split; auto. clear E S. revert ts F. induction R as [|v v' vs vs' V R IH]; intros ts F; inversion F as [|? x ? xs L F']; subst; constructor; auto.
    destruct L as [o [D E]]. exists o. split; auto. eapply datum_rel; eauto. }
  destruct R as [|v v' vs vs' V R]; [exact (G S)|]. destruct R as [|w w' vs vs' W R].
  - assert (Q : v = VVoid \/ v <> VVoid) by (destruct v; auto; right; discriminate). destruct Q as [->|N].
    + simpl in V. subst. exact S.
    + assert (N' : v' <> VVoid). { intros ->. destruct v; simpl in V; try congruence; [destruct V; discriminate|destruct (r l); [discriminate|contradiction]]. }
      assert (S' : exists ts, Forall2 (line a) [v] ts /\ t = List.concat ts) by (destruct v; auto; congruence). apply G in S'. destruct v'; auto; congruence.
  - assert (S' : exists ts, Forall2 (line a) (v :: w :: vs) ts /\ t = List.concat ts) by (destruct v; auto). apply G in S'. destruct v'; auto.
Qed.

Section Displays.
  Variable prim : N -> list val -> heap -> option presult.
  Hypothesis AL : allocates prim.
  Hypothesis AF : address_free prim.
  Lemma displays_step resv unb vals base s es out b : displays prim s es out b ->
    forall es' i s', opts resv unb vals base es es' -> forallb topok es = true -> srel resv unb vals base i s s' -> displays prim s' es' out b.
  Proof.
    assert (ER : forall i, erel resv vals i [] []) by (intros i; split; simpl; auto).
    assert (SIM := proj1 (OptProofs.simulation prim AL AF resv unb vals base)).
    induction 1 as [s|s e es vs s1 out rest b E S D IH|s e es y s1 E NC]; intros es' i s' O T R.
    - inversion O; subst. constructor.
    - inversion O as [|? e' ? es1 O1 O2]; subst. simpl in T. apply andb_true_iff in T. destruct T as [T1 T2].
      destruct (SIM _ _ _ _ _ _ E true [] s' e' i O1 (topok_conds _ T1) (ER i) R) as [C|[x' [s1' [j [EV [L [RR SR]]]]]]]; [simpl in C; discriminate|].
      destruct x' as [vs'|y']; [|destruct RR]. eapply DiVal; [exact EV| |eapply IH; eauto]. eapply shows_rel; [apply SR|exact RR|exact S].
    - inversion O as [|? e' ? es1 O1 O2]; subst. simpl in T. apply andb_true_iff in T. destruct T as [T1 T2].
      destruct (SIM _ _ _ _ _ _ E true [] s' e' i O1 (topok_conds _ T1) (ER i) R) as [C|[x' [s1' [j [EV [L [RR SR]]]]]]]; [simpl in C; congruence|].
      destruct x' as [vs'|y']; [destruct RR|]. eapply DiErr; [exact EV|]. exact (rrel_count _ _ _ _ RR).
  Qed.
  Lemma displays_lsteps s es es' out b : OptProg.ready s -> lsteps (List.length (heap_of s)) es es' -> displays prim s es out b -> forallb topok es = true ->
    forallb topok es' = true /\ displays prim s es' out b.
  Proof.
    intros R. induction 1 as [es O|es es1 es2 S IH O]; intros D T; [split; auto|].
    destruct (IH D T) as [T1 D1]. split; [eapply opts_topok; eauto|]. eapply displays_step; eauto using ready_srel.
  Qed.
  Lemma displays_optimized s es out b f n es' n' : OptProg.ready s ->
    Forall (fun e => src n (List.length (heap_of s)) e = true /\ topok e = true) es -> optimize_program f n es = Some (es', n') ->
    displays prim s es out b -> displays prim s es' out b.
  Proof.
    intros R F O D.
    assert (W : forallb (src n (List.length (heap_of s))) es = true) by (apply forallb_forall; rewrite Forall_forall in F; firstorder).
    assert (T : forallb topok es = true) by (apply forallb_forall; rewrite Forall_forall in F; firstorder).
    destruct (optimize_steps n _ f es n es' n' (Nat.le_refl n) W O) as (es0 & es1 & O0 & O1 & O2 & _).
    assert (D0 : displays prim s es0 out b) by (eapply displays_step; eauto using ready_srel).
    destruct (displays_lsteps s es0 es1 out b R O1 D0 (opts_topok _ _ _ _ _ _ O0 T)) as [T1 D1].
    eapply displays_step; eauto using ready_srel.
  Qed.

  (** ** The machine prints what is displayed *)
  Lemma top_run_res e c s d vs s' stk env vc vals :
    compile_top e = Some c -> wf false true e = true -> eval prim true [] s e (RVals vs) s' -> drel s d -> env < List.length (d_envs d) ->
    exists m r, ends prim (start c stk env vc vals d) (Done r m) /\ res_ok vs m /\ drel s' (m_data m) /\ grows d (m_data m).
  Proof.
    intros CT W EV R LE. destruct (top_inv _ _ CT) as [its [cs [P' [reloc [C [RR WC]]]]]].
    destruct (top_assembled _ _ _ C) as [AS RO].
    assert (PL : placed c (tmpls cs) (top_items e its)) by (eapply placed_of; eauto).
    destruct (top_ctx prim e its cs c stk env vc vals s d C PL R LE) as [m1 [R1 [PL1 [H1 [CX1 [SF [CC G1]]]]]]].
    assert (S := proj1 (SimProofs.simulation prim) _ _ _ _ _ _ EV).
    assert (D := S (tmpls cs) (top_items e its) [] true true _ _ _ m1 PL1 C (ex_intro _ [] eq_refl) H1 W (fun _ => eq_refl)
                   (closed_top _ _) CX1).
    simpl in D. destruct D as [m' [B1 B2 B3 B4 B5 B6 B7 B8 B9]]. exists m', (m_r0 m'). split; [|split; [|split]]; auto.
    - exists m'. split; [eapply reaches_trans; eauto|]. split; auto. rewrite (step_exec _ _ _ B2). simpl. rewrite B3, SF. reflexivity.
    - eapply grows_trans; eauto.
  Qed.
  Lemma res_printed vs m s out : res_ok vs m -> drel s (m_data m) -> shows (heap_of s) vs out -> printed m out.
  Proof.
    intros R D S. rewrite (dr_heap _ _ D) in S. unfold printed. unfold res_ok in R. unfold shows in S.
    assert (ON : forall v, (exists ts, Forall2 (line (d_heap (m_data m))) [v] ts /\ out = List.concat ts) -> line (d_heap (m_data m)) v out).
    { intros v [ts [F ->]]. inversion F as [|? t ? ts' L F']; subst. inversion F'; subst. simpl. rewrite app_nil_r. auto. }
    destruct vs as [|v [|w q]].
    - destruct R as [-> [-> ->]]. exact S.
    - rewrite R. destruct v; auto.
    - destruct R as [-> [-> ->]]. rewrite firstn_all. destruct v; exact S.
  Qed.
  Lemma displays_prints s es out b : displays prim s es out b -> Forall (fun e => compilable e = true /\ wf false true e = true) es ->
    forall t, drel s (t_data t) -> d_envs (t_data t) <> [] -> prints prim t es out b.
  Proof.
    assert (LT : forall d : data, d_envs d <> [] -> 0 < List.length (d_envs d)) by (intros d; destruct (d_envs d); [congruence|simpl; lia]).
    induction 1 as [s|s e es vs s1 out rest b EV SH D IH|s e es y s1 EV NC]; intros F t R NE.
    - constructor.
    - inversion F as [|? ? [CP W] F']; subst. destruct (C28_compilation_succeeds e CP) as [c C].
      destruct (top_run_res e c _ _ _ _ (t_stk t) 0 (t_vc t) (t_vals t) C W EV R (LT _ NE)) as [m [r [E [V [R1 G]]]]].
      eapply PrVal; eauto using res_printed. apply IH; auto. intros E0. assert (L := gr_envs _ _ G). simpl in E0. rewrite E0 in L. assert (X := LT _ NE). simpl in L. lia.
    - inversion F as [|? ? [CP W] F']; subst. destruct (C28_compilation_succeeds e CP) as [c C].
      destruct (top_run prim e c _ _ _ _ (t_stk t) 0 (t_vc t) (t_vals t) C W EV R (LT _ NE)) as [m [E R1]].
      eapply PrErr; eauto.
  Qed.
End Displays.

(** ** One output *)
Lemma datum_fun h : forall v o, datum_at h v o -> forall o', datum_at h v o' -> o' = o.
Proof.
  fix F 3. intros v o D o' D'. destruct D; inversion D'; subst; try reflexivity; try congruence.
  - rewrite H in H1. injection H1 as <- <-. f_equal; [apply (F _ _ D1)|apply (F _ _ D2)]; auto.
  - rewrite H in H2. injection H2 as <-. f_equal. clear H D'. revert vs xs H0 xs0 H3. fix G 3. intros vs xs D xs0 D'. destruct D; inversion D'; subst; [reflexivity|].
    f_equal; [apply (F _ _ H)|apply (G _ _ D)]; auto.
  - rewrite H in H1. injection H1 as <-. f_equal. apply (F _ _ D); auto.
Qed.
Lemma line_fun h v t t' : line h v t -> line h v t' -> t' = t.
Proof. intros [o [D ->]] [o' [D' ->]]. rewrite (datum_fun _ _ _ D _ D'). reflexivity. Qed.
Lemma lines_fun h vs ts ts' : Forall2 (line h) vs ts -> Forall2 (line h) vs ts' -> ts' = ts.
Proof. intros F. revert ts'. induction F; intros ts' F'; inversion F'; subst; auto. f_equal; auto. eapply line_fun; eauto. Qed.
Lemma printed_fun m t t' : printed m t -> printed m t' -> t' = t.
Proof.
  unfold printed. destruct (m_r0 m); try contradiction.
  - destruct v; try apply line_fun. congruence.
  - intros [ts [F ->]] [ts' [F' ->]]. rewrite (lines_fun _ _ _ _ F F'). reflexivity.
Qed.
Lemma prints_fun prim t es out b : prints prim t es out b -> forall out' b', prints prim t es out' b' -> out' = out /\ b' = b.
Proof.
  induction 1 as [t|t e es c r m out rest b C E P R IH|t e es c y m C E]; intros out' b' X.
  - inversion X; auto.
  - inversion X as [|? ? ? c2 r2 m2 o2 rest2 ? C2 E2 P2 R2|? ? ? c2 y2 m2 C2 E2]; subst; rewrite C in C2; injection C2 as <-; assert (Q := ends_fun _ _ _ _ E E2); try discriminate.
    injection Q as <- <-. destruct (IH _ _ R2) as [-> ->]. rewrite (printed_fun _ _ _ P P2). auto.
  - inversion X as [|? ? ? c2 r2 m2 o2 rest2 ? C2 E2 P2 R2|? ? ? c2 y2 m2 C2 E2]; subst; rewrite C in C2; injection C2 as <-; assert (Q := ends_fun _ _ _ _ E E2); try discriminate. auto.
Qed.

(** ** The start *)
Definition in_heap (h : heap) (s : store) : store := Store h (procs_of s) (cells_of s) (glob_of s).
Lemma ready_in_heap s h : OptProg.ready s -> extends (heap_of s) h -> closed h -> OptProg.ready (in_heap h s).
Proof.
  intros R X C. assert (L := HeapM.extends_len _ _ X). constructor; simpl.
  - exact C.
  - intros x v G. eapply closed_val_le; [exact L|]. eapply rd_glob; eauto.
  - intros l p P. destruct (rd_procs _ R _ _ P). split; auto. lia.
  - apply (rd_cells _ R).
  - apply (rd_values _ R).
Qed.
Lemma drel_in_heap s t h : drel s (t_data t) -> drel (in_heap h s) (t_data (with_heap t h)).
Proof.
  intros [D1 D2 D3 D4]. constructor; [reflexivity|exact D2|exact D3|]. eapply procs_grows; [|exact D4]. constructor; simpl; auto.
Qed.
Lemma src_surface n base e : src n base e = true -> surface e = true.
Proof.
  induction e using expr_ind'; simpl; auto; rewrite ?andb_true_iff; intros; try discriminate; intuition auto;
    try (apply forallb_forall; intros z I;
         repeat match goal with A : forallb _ _ = true |- _ => rewrite forallb_forall in A; specialize (A _ I) end;
         repeat match goal with A : Forall _ _ |- _ => rewrite Forall_forall in A; specialize (A _ I) end;
         rewrite ?andb_true_iff in *; intuition auto; fail).
  apply forallb_forall. intros c I. rewrite forallb_forall in H2. specialize (H2 _ I). rewrite Forall_forall in H. specialize (H _ I). rewrite !andb_true_iff in H2. destruct H2 as [_ H2].
  apply forallb_forall. intros z J. rewrite forallb_forall in H2. rewrite Forall_forall in H. auto.
Qed.
