(** The passes of the optimiser are made of the steps of OptSim.v. *)
From Coq Require Import ZArith NArith Bool Ascii String List Arith Lia Permutation.
From Verif Require Import Base Heap HeapM Ast Sem Opt OptRel OptSim OptProofs.
Import ListNotations.
Local Open Scope list_scope.

Scheme opt_min := Minimality for opt Sort Prop
  with opts_min := Minimality for opts Sort Prop
  with optcs_min := Minimality for optcs Sort Prop
  with optbs_min := Minimality for optbs Sort Prop.
Combined Scheme opt_min_all from opt_min, opts_min, optcs_min, optbs_min.

Ltac bools := repeat match goal with
  | H : _ && _ = true |- _ => apply andb_true_iff in H; destruct H
  | |- _ && _ = true => apply andb_true_iff; split
  end.

(** ** The conditions on assignments are preserved *)
Lemma memb_incl x xs ys : incl xs ys -> memb x xs = true -> memb x ys = true.
Proof. intros I H. apply memb_In. apply I. apply memb_In. auto. Qed.
Lemma forallb_imp {A} (f g : A -> bool) l : Forall (fun x => f x = true -> g x = true) l -> forallb f l = true -> forallb g l = true.
Proof. induction 1; simpl; auto. intros. bools; auto. Qed.
Lemma locals_weaken e : forall xs ys, incl xs ys -> locals_only xs e = true -> locals_only ys e = true.
Proof.
  assert (L : forall es xs ys, Forall (fun e => forall xs ys, incl xs ys -> locals_only xs e = true -> locals_only ys e = true) es ->
              incl xs ys -> forallb (locals_only xs) es = true -> forallb (locals_only ys) es = true).
  { intros es xs ys F I. apply forallb_imp. eapply Forall_impl; [|eauto]. simpl. eauto. }
  assert (B : forall (bs : list (list ident * expr)) xs ys,
              Forall (fun b => forall xs ys, incl xs ys -> locals_only xs (snd b) = true -> locals_only ys (snd b) = true) bs ->
              incl xs ys -> forallb (fun p => locals_only xs (snd p)) bs = true -> forallb (fun p => locals_only ys (snd p)) bs = true).
  { intros bs xs ys F I. apply forallb_imp. eapply Forall_impl; [|eauto]. simpl. eauto. }
  assert (IA : forall (a : list ident) xs ys, incl xs ys -> incl (a ++ xs) (a ++ ys)).
  { intros a xs ys I x. rewrite !in_app_iff. intuition. }
  induction e using expr_ind'; intros xs ys I W; simpl in *; bools; eauto using memb_incl.
  revert W. apply forallb_imp. eapply Forall_impl; [|eauto]. simpl. eauto.
Qed.
Lemma locals_weaken_all es xs ys : incl xs ys -> forallb (locals_only xs) es = true -> forallb (locals_only ys) es = true.
Proof. intros I. rewrite !forallb_forall. eauto using locals_weaken. Qed.

Lemma locals_begin1 xs es : forallb (locals_only xs) es = true -> locals_only xs (begin1 es) = true.
Proof. destruct es as [|e [|e' es]]; simpl; auto. intros. bools. auto. Qed.
Lemma locals_into_last xs c es : forallb (locals_only xs) es = true -> locals_only xs c = true -> forallb (locals_only xs) (into_last es c) = true.
Proof.
  intros H C. induction es as [|e es IH]; auto. destruct es as [|e' es]; [simpl in *; bools; auto|].
  change (forallb (locals_only xs) (e :: into_last (e' :: es) c) = true). simpl in H. simpl forallb. bools; auto. apply IH. simpl. bools; auto.
Qed.
Lemma locals_post xs e e' : post e e' -> locals_only xs e = true -> locals_only xs e' = true.
Proof. destruct 1; simpl; auto; intros; bools; auto. apply locals_into_last; auto. Qed.

Lemma fm_none xs : fm_ids (Formals xs None) = xs.
Proof. unfold fm_ids. simpl. apply app_nil_r. Qed.
Lemma locals_letn b : forall bs tss ids tmps X Y Z,
  Forall2 (fun (p : list ident * expr) (ts : list ident) => List.length ts = List.length (fst p)) bs tss ->
  forallb (fun p => locals_only X (snd p)) bs = true -> incl X Y ->
  forallb (locals_only Z) b = true -> incl Z (let_ids bs ++ ids ++ Y) ->
  locals_only Y (letn bs tss ids tmps b) = true.
Proof.
  induction bs as [|[xs e] bs IH]; intros tss ids tmps X Y Z F W IX WB IZ.
  - simpl. rewrite fm_none. bools.
    + eapply locals_weaken_all; eauto.
    + clear. induction tmps; auto.
  - inversion F as [|? ts ? tr HL HR]; subst. simpl. simpl in W. bools; eauto using locals_weaken.
    eapply (IH _ _ _ X _ Z); eauto.
    + intros x I. apply in_app_iff. auto.
    + intros x I. apply IZ in I. unfold let_ids in I. simpl in I. fold (let_ids bs) in I. rewrite fm_none. rewrite !in_app_iff in *. tauto.
Qed.
Lemma locals_sets X xs ts : incl xs X -> forallb (locals_only X) (sets xs ts) = true.
Proof.
  intros I. unfold sets. destruct xs as [|x xs]; auto. revert ts. induction (x :: xs) as [|y ys IH]; intros ts; auto.
  destruct ts as [|t ts]; auto. simpl. bools; auto; [apply memb_In; apply I; simpl; auto|]. apply IH. intros z J. apply I. simpl. auto.
Qed.
Lemma locals_recsets X : forall bs tss, forallb (fun p => locals_only X (snd p)) bs = true -> incl (let_ids bs) X ->
  forallb (locals_only X) (recsets bs tss) = true.
Proof.
  induction bs as [|[xs e] bs IH]; intros tss W I; auto. destruct tss as [|ts tss]; auto. simpl in *.
  unfold let_ids in I. simpl in I. fold (let_ids bs) in I. bools; auto.
  - apply locals_sets. intros x J. apply in_app_iff. right. apply I. apply in_app_iff. auto.
  - apply IH; auto. intros x J. apply I. apply in_app_iff. auto.
Qed.

Section Preserve.
  Variable resv : ident -> Prop.
  Variables unb vals : bool.
  Variable base : nat.
  Notation opt := (opt resv unb vals base).
  Notation opts := (opts resv unb vals base).
  Notation optcs := (optcs resv unb vals base).
  Notation optbs := (optbs resv unb vals base).

  Lemma opt_locals_all :
    (forall e e', opt e e' -> forall xs, locals_only xs e = true -> locals_only xs e' = true) /\
    (forall es es', opts es es' -> forall xs, forallb (locals_only xs) es = true -> forallb (locals_only xs) es' = true) /\
    (forall cls cls', optcs cls cls' -> forall xs,
       forallb (fun c => forallb (locals_only (fm_ids (fst c) ++ xs)) (snd c)) cls = true ->
       forallb (fun c => forallb (locals_only (fm_ids (fst c) ++ xs)) (snd c)) cls' = true) /\
    (forall bs bs', optbs bs bs' -> map fst bs' = map fst bs /\ forall xs,
       forallb (fun p => locals_only xs (snd p)) bs = true -> forallb (fun p => locals_only xs (snd p)) bs' = true).
  Proof.
    apply opt_min_all; intros; simpl in *; bools; auto;
      try (eapply locals_post; [eassumption|]; simpl; bools; auto; fail);
      rewrite ?fm_none in *; unfold let_ids in *; simpl in *; rewrite ?app_nil_r in *; bools; auto using locals_begin1.
    - (* letn *)
      destruct H1 as [MF H1]. eapply locals_letn; eauto.
      + clear -H6 MF. revert bs' MF. induction H6; intros [|[ys e'] bs'] MF; try discriminate; constructor; try (simpl in MF; injection MF as A B; rewrite A; auto); auto.
        apply IHForall2. simpl in MF. injection MF as A B. auto.
      + apply incl_refl.
      + unfold let_ids. rewrite MF. simpl. apply incl_refl.
    - clear. induction (List.length (List.concat (map fst bs))); auto.
    - rewrite forallb_app. bools; auto. apply locals_recsets; [apply H1; auto|].
      unfold let_ids. rewrite (proj1 H1). intros x I. apply in_app_iff. auto.
    - destruct H2 as [A B]. split; [congruence|]. intros. bools; auto.
  Qed.
  Lemma opt_locals e e' : opt e e' -> forall xs, locals_only xs e = true -> locals_only xs e' = true.
  Proof. apply opt_locals_all. Qed.

  Lemma opt_plain_all :
    (forall e e', opt e e' -> plain e = true -> plain e' = true) /\
    (forall es es', opts es es' -> forallb plain es = true -> forallb plain es' = true) /\
    (forall cls cls', optcs cls cls' -> True) /\
    (forall bs bs', optbs bs bs' -> True).
  Proof.
    apply opt_min_all; intros; simpl in *; bools; auto; try discriminate.
    destruct f; try discriminate. inversion H; subst. auto.
  Qed.
  Lemma opt_plain e e' : opt e e' -> plain e = true -> plain e' = true.
  Proof. apply opt_plain_all. Qed.
End Preserve.

(** ** The expressions between the passes *)
Definition some {A} (l : list A) : bool := match l with [] => false | _ => true end.
Definition litb (base : nat) (v : val) : bool :=
  match v with VPtr l => l <? base | VUnbound => false | _ => true end.
Lemma litb_lit base v : litb base v = true -> lit base v.
Proof. destruct v; simpl; auto; try discriminate. apply Nat.ltb_lt. Qed.
Definition nov (xs : list ident) : bool := negb (memb values_id xs).
(** The procedure expression under [values] and one-clause case-lambda. *)
Fixpoint bare (e : expr) : expr :=
  match e with
  | EValues [e1] => bare e1
  | ECase [(fm, b)] => ELam fm b
  | _ => e
  end.
(** The procedure of an immediate call has parameters exactly when it is given
    arguments. *)
Definition appok (g : expr) (es : list expr) : bool :=
  match bare g with ELam (Formals ids None) _ => Bool.eqb (some ids) (some es) | _ => true end.
Definition consfm (fm : formals) : bool := match rest fm with None => some (req fm) | Some _ => negb (some (req fm)) end.
Definition consok (c : expr) : bool :=
  match c with
  | ELam fm _ | ECase [(fm, _)] => consfm fm
  | ECase (_ :: _) => true
  | _ => false
  end.
Definition oneclause (cls : list clause) : bool := match cls with [_] => true | _ => false end.
Fixpoint good1 (base : nat) (e : expr) : bool :=
  match e with
  | EConst v => litb base v
  | EUnbound | EVar _ => true
  | EDefine ids e => nov ids && good1 base e
  | ESet x e => nov [x] && good1 base e
  | ELam fm b => nov (fm_ids fm) && some b && forallb (good1 base) b
  | ECase cls => some cls && negb (oneclause cls) && forallb (fun c => nov (fm_ids (fst c)) && some (snd c) && forallb (good1 base) (snd c)) cls
  | EBegin es => some es && forallb (good1 base) es
  | EIf a b c => good1 base a && good1 base b && good1 base c
  | EApp g es => appok g es && good1 base g && forallb (good1 base) es
  | EValues es | EMvValues es => some es && forallb (good1 base) es
  | ECwv p c => appok p [] && consok c && good1 base p && good1 base c
  | EMvCall p c => consok c && good1 base p && good1 base c
  | EMvLet e fm b => match rest fm with None => true | Some _ => false end && nov (req fm) && good1 base e && good1 base b
  | ELet _ _ | ELetrec _ _ => false
  end.

Section L1.
  Variable base : nat.
  Definition none (x : ident) : Prop := False.
  Notation opt1 := (opt none true false base).
  Notation opts1 := (opts none true false base).
  Notation optcs1 := (optcs none true false base).
  Notation good := (good1 base).

  Lemma okid1 xs : Forall (okid none false) xs.
  Proof. apply Forall_forall. intros x _. split; [intros []|discriminate]. Qed.
  Lemma good_refl e : good e = true -> opt1 e e.
  Proof.
    assert (L : forall es, Forall (fun e => good e = true -> opt1 e e) es -> forallb good es = true -> opts1 es es).
    { induction 1; simpl; intros; constructor; bools; auto. }
    induction e using expr_ind'; simpl; intros; bools; try discriminate; try (constructor; auto using okid1, litb_lit; try (intros []); try (split; [intros []|discriminate]); fail).
    - constructor. clear -H H1 L. induction H as [|[fm b] cs B F IH]; simpl in *; constructor; bools; auto using okid1.
    - eapply OMvCall; eauto. constructor.
    - destruct ids as [xs [y|]]; simpl in *; try discriminate. constructor; auto using okid1.
  Qed.
  Lemma goods_refl es : forallb good es = true -> opts1 es es.
  Proof. induction es; simpl; intros; constructor; bools; auto using good_refl. Qed.
  Lemma opts_in_refl es : opts1 es es -> forall e, In e es -> opt1 e e.
  Proof. intros O. remember es as es2 in O at 2. revert Heqes2. induction O; intros Q e1 I; [destruct I|]. injection Q as -> ->. destruct I as [<-|I]; auto. Qed.
  Lemma begin_refl es : opts1 es es -> opt1 (begin1 es) (begin1 es).
  Proof. intros O. destruct es as [|e [|e' es]]; simpl; try (constructor; auto; fail). inversion O; auto. Qed.
  Lemma into_last_refl es c : opts1 es es -> opt1 c c -> opts1 (into_last es c) (into_last es c).
  Proof.
    intros O C. induction es as [|e es IH]; [constructor|]. inversion O; subst. destruct es as [|e' es].
    - constructor; [|constructor]. eapply OMvCall; eauto. constructor.
    - change (opts1 (e :: into_last (e' :: es) c) (e :: into_last (e' :: es) c)). constructor; auto.
  Qed.
  (** What a step yields can be kept as it is. *)
  Lemma opt_refl_all :
    (forall e e', opt1 e e' -> opt1 e' e') /\
    (forall es es', opts1 es es' -> opts1 es' es') /\
    (forall cls cls', optcs1 cls cls' -> optcs1 cls' cls') /\
    (forall bs bs', optbs none true false base bs bs' -> True).
  Proof.
    apply opt_min_all; intros; try discriminate; auto; try (constructor; auto using okid1, begin_refl; fail);
      try (repeat (constructor; auto using okid1); fail); auto using begin_refl.
    - inversion H3; subst.
      + eapply OMvCall; [eassumption|eassumption|constructor].
      + constructor. apply into_last_refl; auto. inversion H0; auto.
      + inversion H0; subst. constructor; auto; eapply OMvCall; eauto using PostSame.
    - eapply OMvCall; [|eauto|constructor]. constructor; auto. constructor.
  Qed.
  Lemma opt_refl_r e e' : opt1 e e' -> opt1 e' e'.
  Proof. apply opt_refl_all. Qed.
  Lemma opts_refl_r es es' : opts1 es es' -> opts1 es' es'.
  Proof. apply opt_refl_all. Qed.

  (** Several steps. *)
  Inductive steps : expr -> expr -> Prop :=
  | StRefl e : opt1 e e -> steps e e
  | StStep e e1 e2 : steps e e1 -> opt1 e1 e2 -> steps e e2.
  Inductive lsteps : list expr -> list expr -> Prop :=
  | LsRefl es : opts1 es es -> lsteps es es
  | LsStep es es1 es2 : lsteps es es1 -> opts1 es1 es2 -> lsteps es es2.
  Inductive csteps : list clause -> list clause -> Prop :=
  | CsRefl es : optcs1 es es -> csteps es es
  | CsStep es es1 es2 : csteps es es1 -> optcs1 es1 es2 -> csteps es es2.
  Hint Constructors steps lsteps csteps : core.
  Lemma steps_r e e' : steps e e' -> opt1 e' e'.
  Proof. induction 1; eauto using opt_refl_r. Qed.
  Lemma lsteps_r e e' : lsteps e e' -> opts1 e' e'.
  Proof. induction 1; eauto using opts_refl_r. Qed.
  Lemma csteps_r e e' : csteps e e' -> optcs1 e' e'.
  Proof. induction 1; auto. eapply (proj1 (proj2 (proj2 opt_refl_all))); eauto. Qed.
  Lemma steps_l e e' : steps e e' -> opt1 e e.
  Proof. induction 1; auto. Qed.
  Lemma lsteps_l e e' : lsteps e e' -> opts1 e e.
  Proof. induction 1; auto. Qed.
  Lemma csteps_l e e' : csteps e e' -> optcs1 e e.
  Proof. induction 1; auto. Qed.
  Lemma steps_trans a b c : steps a b -> steps b c -> steps a c.
  Proof. intros A. induction 1; eauto. Qed.
  Lemma lsteps_trans a b c : lsteps a b -> lsteps b c -> lsteps a c.
  Proof. intros A. induction 1; eauto. Qed.
  Lemma csteps_trans a b c : csteps a b -> csteps b c -> csteps a c.
  Proof. intros A. induction 1; eauto. Qed.
  Lemma steps_one a b : opt1 a a -> opt1 a b -> steps a b.
  Proof. eauto. Qed.

  Lemma steps_cong (C : expr -> expr) e e' : (forall a b, opt1 a b -> opt1 (C a) (C b)) -> steps e e' -> steps (C e) (C e').
  Proof. intros H. induction 1; eauto. Qed.
  Lemma lsteps_cong (C : list expr -> expr) e e' : (forall a b, opts1 a b -> opt1 (C a) (C b)) -> lsteps e e' -> steps (C e) (C e').
  Proof. intros H. induction 1; eauto. Qed.
  Lemma csteps_cong (C : list clause -> expr) e e' : (forall a b, optcs1 a b -> opt1 (C a) (C b)) -> csteps e e' -> steps (C e) (C e').
  Proof. intros H. induction 1; eauto. Qed.
  Lemma lsteps_cons e e' es es' : steps e e' -> lsteps es es' -> lsteps (e :: es) (e' :: es').
  Proof.
    intros A B. apply lsteps_trans with (e' :: es).
    - assert (R := lsteps_l _ _ B). induction A as [e H|e e1 e2 H IH O].
      + apply LsRefl. constructor; auto.
      + eapply LsStep; [apply IH|]. constructor; auto.
    - assert (R := steps_r _ _ A). induction B as [es H|es es1 es2 H IH O].
      + apply LsRefl. constructor; auto.
      + eapply LsStep; [apply IH|]. constructor; auto.
  Qed.
  Lemma csteps_cons fm b b' cs cs' : lsteps b b' -> csteps cs cs' -> csteps ((fm, b) :: cs) ((fm, b') :: cs').
  Proof.
    intros A B. apply csteps_trans with ((fm, b') :: cs).
    - assert (R := csteps_l _ _ B). induction A as [e H|e e1 e2 H IH O].
      + apply CsRefl. constructor; auto using okid1.
      + eapply CsStep; [apply IH|]. constructor; auto using okid1.
    - assert (R := lsteps_r _ _ A). induction B as [es H|es es1 es2 H IH O].
      + apply CsRefl. constructor; auto using okid1.
      + eapply CsStep; [apply IH|]. constructor; auto using okid1.
  Qed.

  Lemma good_begin1 es : some es = true -> forallb good es = true -> good (begin1 es) = true.
  Proof. destruct es as [|e [|e' es]]; simpl; intros; bools; auto. Qed.
  Lemma good_into_last es c : forallb good es = true -> good c = true -> consok c = true -> forallb good (into_last es c) = true.
  Proof.
    intros H G C. induction es as [|e es IH]; auto. destruct es as [|e' es]; [simpl in *; bools; auto|].
    change (forallb good (e :: into_last (e' :: es) c) = true). simpl in H. simpl forallb. bools; auto. apply IH. simpl. bools; auto.
  Qed.
  Lemma some_into_last es c : some es = true -> some (into_last es c) = true.
  Proof. destruct es as [|e [|e' es]]; auto. Qed.
  Lemma consok_app c es : consok c = true -> good c = true -> some es = true -> appok c es = true.
  Proof.
    unfold appok. destruct c; try discriminate; simpl; intros C G E.
    - destruct fm as [ids [y|]]; auto. unfold consfm in C. simpl in C. rewrite C, E. auto.
    - destruct cls as [|[fm b] [|]]; auto. simpl in G. discriminate.
  Qed.
  Lemma consok_literal c : consok c = true -> literal c <> None.
  Proof. destruct c; try discriminate. destruct cls; discriminate. Qed.

  (** The rewriting of mv-call is a step. *)
  Definition islam (e : expr) : bool := match e with ELam _ _ => true | _ => false end.
  Lemma mvcall_step e c e1 : good (EMvCall e c) = true -> mvcall_expr e c = inl e1 ->
    opt1 (EMvCall e c) e1 /\ good e1 = true /\ bare e1 = e1 /\ islam e1 = false.
  Proof.
    intros G E. assert (G0 := G). simpl in G. bools. assert (RE := good_refl _ H1). assert (RC := good_refl _ H0).
    assert (LAST : forall q, match c with ELam fm body => match req fm with [] => inr (EMvCall e c) | _ => inl (EMvLet e fm (begin1 body)) end
                             | _ => inr (EMvCall e c) end = (inl q : expr + expr) ->
                   opt1 (EMvCall e c) q /\ good q = true /\ bare q = q /\ islam q = false).
    { intros q Q. destruct c; try discriminate. destruct fm as [[|x xs] [y|]]; simpl in Q; try discriminate.
      injection Q as <-. inversion RC; subst. split; [constructor; auto using okid1|].
      split; [|auto]. simpl in H0. rewrite fm_none in H0. unfold consfm in H. simpl in *. bools; auto using good_begin1. }
    destruct e; simpl in E; try (apply LAST; exact E).
    - injection E as <-. split; [apply OMvOne; auto using consok_literal|]. split; [|auto]. simpl. rewrite consok_app; auto. simpl in H1. rewrite H0, H1. auto.
    - injection E as <-. split; [apply OMvOne; auto using consok_literal|]. split; [|auto]. simpl. rewrite consok_app; auto. rewrite H0. auto.
    - injection E as <-. split; [apply OMvOne; auto using consok_literal|]. split; [|auto]. simpl. rewrite consok_app; auto. rewrite H0. simpl in H1. rewrite H1. auto.
    - injection E as <-. simpl in H1. bools. split; [eapply OMvCall; [exact RE|exact RC|apply PostBegin; destruct es; discriminate]|].
      split; [|auto]. simpl. bools; auto using good_into_last, some_into_last.
    - injection E as <-. simpl in H1. bools. split; [eapply OMvCall; [exact RE|exact RC|apply PostIf]|]. split; [|auto]. simpl. bools; auto.
    - destruct e; try (apply LAST; exact E). destruct fm as [[|x xs] [y|]]; try (apply LAST; exact E).
      injection E as <-. simpl in H1. bools. unfold appok in H1. simpl in H1. destruct args; [|discriminate].
      split; [eapply OMvCall; [|exact RC|apply PostSame]|].
      + constructor. auto using goods_refl.
      + split; [|auto]. simpl. bools; auto using good_begin1.
    - injection E as <-. simpl in H1. bools. assert (RS := goods_refl _ H2). split; [apply OMvVals; auto using consok_literal|]. split; [|auto].
      simpl. bools; auto using consok_app.
  Qed.

  Definition L1_ok (e e' : expr) : Prop :=
    steps e e' /\ good e' = true /\ bare e' = e' /\
    (forall fm b, e' = ELam fm b -> exists b0, bare e = ELam fm b0) /\ (consok e = true -> consok e' = true).
  Lemma L1_seq F es es' : (forall e e', F e = Some e' -> good e = true -> L1_ok e e') ->
    seq1 F es = Some es' -> forallb good es = true -> lsteps es es' /\ forallb good es' = true /\ some es' = some es.
  Proof.
    intros IH. revert es'. induction es as [|e es IHl]; simpl; intros es' E G.
    - injection E as <-. split; auto. apply LsRefl. constructor.
    - bools. destruct (F e) as [e1|] eqn:Fe; [|discriminate]. destruct (seq1 F es) as [r|] eqn:Fs; [|discriminate]. injection E as <-.
      destruct (IH _ _ Fe H) as [S [G1 _]]. destruct (IHl _ eq_refl H0) as [S2 [G2 _]]. split; auto using lsteps_cons. split; auto. simpl. bools; auto.
  Qed.
  Lemma L1_clauses F cls cls' : (forall e e', F e = Some e' -> good e = true -> L1_ok e e') ->
    clauses1 F cls = Some cls' ->
    forallb (fun c => nov (fm_ids (fst c)) && some (snd c) && forallb good (snd c)) cls = true ->
    csteps cls cls' /\ forallb (fun c => nov (fm_ids (fst c)) && some (snd c) && forallb good (snd c)) cls' = true /\
    map fst cls' = map fst cls.
  Proof.
    intros IH. revert cls'. induction cls as [|[fm b] cls IHl]; simpl; intros cls' E G.
    - injection E as <-. split; auto. apply CsRefl. constructor.
    - bools. destruct (seq1 F b) as [b1|] eqn:Fb; [|discriminate]. destruct (clauses1 F cls) as [r|] eqn:Fs; [|discriminate]. injection E as <-.
      destruct (L1_seq _ _ _ IH Fb H1) as [S [G1 N]]. destruct (IHl _ eq_refl H0) as [S2 [G2 M]]. split; auto using csteps_cons.
      simpl. split; [bools; auto; congruence|]. congruence.
  Qed.

  Lemma bare_val e : bare e = e \/ (exists e1, e = EValues [e1]) \/ (exists fm b, e = ECase [(fm, b)]).
  Proof. destruct e; auto. - destruct cls as [|[fm b] [|]]; eauto. - destruct es as [|e [|]]; eauto. Qed.
  Lemma appok_lam p p' es es' : bare p' = p' -> (forall fm b, p' = ELam fm b -> exists b0, bare p = ELam fm b0) ->
    some es' = some es -> appok p es = true -> appok p' es' = true.
  Proof.
    unfold appok. intros -> H S A. destruct p'; auto. destruct (H _ _ eq_refl) as [b0 E]. rewrite E in A. destruct fm as [ids [y|]]; auto. congruence.
  Qed.

  Theorem L1_steps f : forall e e', opt_L1 f e = Some e' -> good e = true -> L1_ok e e'.
  Proof.
    induction f as [|f IH]; intros e e' E G; [discriminate|]. assert (RE := good_refl _ G).
    assert (MV : forall p c q, good (EMvCall p c) = true ->
                 match mvcall_expr p c with inl e1 => opt_L1 f e1 | inr e1 => Some e1 end = Some q ->
                 steps (EMvCall p c) q /\ good q = true /\ bare q = q /\ islam q = false).
    { intros p c q GM Q. destruct (mvcall_expr p c) as [e1|e1] eqn:M.
      - destruct (mvcall_step _ _ _ GM M) as [O [G1 [B1 N1]]]. destruct (IH _ _ Q G1) as [S [G2 [B2 [L2 _]]]].
        split; [eapply steps_trans; [|exact S]; apply steps_one; auto using good_refl|]. split; auto. split; auto.
        destruct q; auto. destruct (L2 _ _ eq_refl) as [b0 E2]. rewrite B1 in E2. subst e1. discriminate.
      - injection Q as <-.
        assert (e1 = EMvCall p c).
        { clear -M. unfold mvcall_expr in M.
          assert (LAST : forall q, match c with ELam fm body => match req fm with [] => inr (EMvCall p c) | _ => inl (EMvLet p fm (begin1 body)) end
                             | _ => inr (EMvCall p c) end = (inr q : expr + expr) -> q = EMvCall p c).
          { intros q Q. destruct c; try congruence. destruct (req fm); congruence. }
          destruct p; try discriminate; try (apply LAST; exact M).
          destruct p; try (apply LAST; exact M). destruct fm as [[|] [|]]; try discriminate; apply LAST; exact M. }
        subst e1. split; [apply StRefl; apply good_refl; auto|]. auto. }
    simpl in E.
    destruct e.
    - injection E as <-. split; [apply StRefl; auto|]. split; auto. split; auto. split; auto. discriminate.
    - injection E as <-. split; [apply StRefl; auto|]. split; auto. split; auto. split; auto. discriminate.
    - injection E as <-. split; [apply StRefl; auto|]. split; auto. split; auto. split; auto. discriminate.
    - simpl in G. bools. destruct (opt_L1 f e) as [e1|] eqn:E1; [|discriminate]. injection E as <-. destruct (IH _ _ E1 H0) as [S [G1 _]].
      split; [apply (steps_cong (EDefine ids)); auto; intros; constructor; auto using okid1|]. split; [simpl; bools; auto|]. split; auto. split; discriminate.
    - simpl in G. bools. destruct (opt_L1 f e) as [e1|] eqn:E1; [|discriminate]. injection E as <-. destruct (IH _ _ E1 H0) as [S [G1 _]].
      split; [apply (steps_cong (ESet x)); auto; intros; constructor; auto; split; [intros []|discriminate]|]. split; [simpl; bools; auto|]. split; auto. split; discriminate.
    - simpl in G. bools. destruct (seq1 (opt_L1 f) body) as [b'|] eqn:E1; [|discriminate]. injection E as <-.
      destruct (L1_seq _ _ _ IH E1 H0) as [S [G1 N]].
      split; [apply (lsteps_cong (ELam fm)); auto; intros; constructor; auto using okid1|].
      split; [simpl; bools; auto; congruence|]. split; auto. split; auto. intros fm0 b Q. injection Q as <- <-. simpl. eauto.
    - simpl in G. bools. destruct (clauses1 (opt_L1 f) cls) as [b'|] eqn:E1; [|discriminate]. injection E as <-.
      destruct (L1_clauses _ _ _ IH E1 H0) as [S [G1 N]].
      assert (O : oneclause b' = false).
      { destruct b' as [|? [|? ?]], cls as [|? [|? ?]]; simpl in *; try discriminate; auto. }
      split; [apply (csteps_cong ECase); auto; intros; constructor; auto|]. split; [simpl; rewrite O; bools; auto; destruct b', cls; auto; discriminate|].
      split; [destruct b' as [|[? ?] [|? ?]]; simpl in *; auto; discriminate|]. split; [discriminate|].
      intros C. destruct b' as [|[? ?] [|? ?]], cls as [|? [|? ?]]; simpl in *; try discriminate; auto.
    - simpl in G. bools. destruct (seq1 (opt_L1 f) es) as [b'|] eqn:E1; [|discriminate]. injection E as <-.
      destruct (L1_seq _ _ _ IH E1 H0) as [S [G1 N]].
      split; [apply (lsteps_cong EBegin); auto; intros; constructor; auto|]. split; [simpl; bools; auto; congruence|]. split; auto. split; discriminate.
    - simpl in G. bools. destruct (opt_L1 f e1) as [a|] eqn:E1; [|discriminate]. destruct (opt_L1 f e2) as [b|] eqn:E2; [|discriminate].
      destruct (opt_L1 f e3) as [c|] eqn:E3; [|discriminate]. injection E as <-.
      destruct (IH _ _ E1 H) as [S1 [G1 _]]. destruct (IH _ _ E2 H1) as [S2 [G2 _]]. destruct (IH _ _ E3 H0) as [S3 [G3 _]].
      split; [|split; [simpl; bools; auto|]; split; auto; split; discriminate].
      apply steps_trans with (EIf a e2 e3); [apply (steps_cong (fun a => EIf a e2 e3)); auto; intros; constructor; eauto using steps_l|].
      apply steps_trans with (EIf a b e3); [apply (steps_cong (fun b => EIf a b e3)); auto; intros; constructor; eauto using steps_l, steps_r|].
      apply (steps_cong (fun c => EIf a b c)); auto; intros; constructor; eauto using steps_l, steps_r.
    - simpl in G. bools. destruct (opt_L1 f e) as [g|] eqn:E1; [|discriminate]. destruct (seq1 (opt_L1 f) args) as [b'|] eqn:E2; [|discriminate]. injection E as <-.
      destruct (IH _ _ E1 H1) as [S1 [G1 [B1 [L1 _]]]]. destruct (L1_seq _ _ _ IH E2 H0) as [S2 [G2 N]].
      split; [|split; [simpl; bools; eauto using appok_lam|]; split; auto; split; discriminate].
      apply steps_trans with (EApp g args); [apply (steps_cong (fun a => EApp a args)); auto; intros; constructor; eauto using lsteps_l|].
      apply (lsteps_cong (fun a => EApp g a)); auto; intros; constructor; eauto using steps_r.
    - discriminate.
    - discriminate.
    - simpl in G. bools. destruct es as [|e1 [|e2 es]]; [discriminate| |].
      + simpl in H0. bools. destruct (IH _ _ E H0) as [S [G1 [B1 [L1 _]]]].
        split; [eapply steps_trans; [|exact S]; apply steps_one; auto; constructor; auto using good_refl|]. split; auto. split; auto. split; [|discriminate].
        simpl. auto.
      + destruct (seq1 (opt_L1 f) (e1 :: e2 :: es)) as [b'|] eqn:E1; [|discriminate]. injection E as <-.
        destruct (L1_seq _ _ _ IH E1 H0) as [S [G1 N]].
        split; [|split; [simpl; bools; auto; congruence|]; split; auto; split; discriminate].
        eapply StStep; [apply (lsteps_cong EValues); [intros; constructor; auto|exact S]|]. apply OValues. eauto using lsteps_r.
    - simpl in G. bools. destruct (opt_L1 f e1) as [p|] eqn:E1; [|discriminate]. destruct (opt_L1 f e2) as [c|] eqn:E2; [|discriminate].
      destruct (IH _ _ E1 H1) as [S1 [G1 [B1 [L1 _]]]]. destruct (IH _ _ E2 H0) as [S2 [G2 [B2 [L2 C2]]]].
      destruct (MV (EApp p []) c e') as [S [G3 [B3 N3]]]; [simpl; bools; eauto using appok_lam|exact E|].
      split; [|split; auto; split; auto; split; [intros; subst; discriminate|discriminate]].
      eapply steps_trans; [|exact S].
      apply steps_trans with (ECwv p e2); [apply (steps_cong (fun a => ECwv a e2)); auto; intros; constructor; eauto using steps_l|].
      apply StStep with (ECwv p c); [apply (steps_cong (fun a => ECwv p a)); auto; intros; constructor; eauto using steps_r|].
      apply OCwv; eauto using steps_r, consok_literal.
    - destruct (MV _ _ _ G E) as [S [G3 [B3 N3]]]. split; auto. split; auto. split; auto. split; [intros; subst; discriminate|discriminate].
    - simpl in G. bools. destruct (opt_L1 f e1) as [p|] eqn:E1; [|discriminate]. destruct (opt_L1 f e2) as [c|] eqn:E2; [|discriminate].
      injection E as <-. destruct ids as [xs [y|]]; simpl in *; [discriminate|].
      destruct (IH _ _ E1 H1) as [S1 [G1 _]]. destruct (IH _ _ E2 H0) as [S2 [G2 _]].
      split; [|split; [simpl; bools; auto|]; split; auto; split; discriminate].
      apply steps_trans with (EMvLet p (Formals xs None) e2); [apply (steps_cong (fun a => EMvLet a (Formals xs None) e2)); auto; intros; constructor; eauto using okid1, steps_l|].
      apply (steps_cong (fun a => EMvLet p (Formals xs None) a)); auto; intros; constructor; eauto using okid1, steps_r.
    - simpl in G. bools. destruct (seq1 (opt_L1 f) es) as [b'|] eqn:E1; [|discriminate]. injection E as <-.
      destruct (L1_seq _ _ _ IH E1 H0) as [S [G1 N]].
      split; [apply (lsteps_cong EMvValues); auto; intros; constructor; auto|]. split; [simpl; bools; auto; congruence|]. split; auto. split; discriminate.
  Qed.
End L1.

Section L2.
  Variable base : nat.
  Notation opt2 := (opt none true true base).
  Notation opts2 := (opts none true true base).
  Notation optcs2 := (optcs none true true base).
  Notation good := (good1 base).

  Lemma okid2 xs : nov xs = true -> Forall (okid none true) xs.
  Proof.
    unfold nov. rewrite negb_true_iff, memb_false. intros N. apply Forall_forall. intros x I. split; [intros []|].
    intros _ ->. auto.
  Qed.
  Lemma L2_seq F es es' : (forall e e', F e = Some e' -> good e = true -> opt2 e e') ->
    seq1 F es = Some es' -> forallb good es = true -> opts2 es es'.
  Proof.
    intros IH. revert es'. induction es as [|e es IHl]; simpl; intros es' E G; [injection E as <-; constructor|].
    bools. destruct (F e) as [e1|] eqn:Fe; [|discriminate]. destruct (seq1 F es) as [r|] eqn:Fs; [|discriminate]. injection E as <-.
    constructor; auto.
  Qed.
  Lemma L2_clauses F cls cls' : (forall e e', F e = Some e' -> good e = true -> opt2 e e') ->
    clauses1 F cls = Some cls' ->
    forallb (fun c => nov (fm_ids (fst c)) && some (snd c) && forallb good (snd c)) cls = true -> optcs2 cls cls'.
  Proof.
    intros IH. revert cls'. induction cls as [|[fm b] cls IHl]; simpl; intros cls' E G; [injection E as <-; constructor|].
    bools. destruct (seq1 F b) as [b1|] eqn:Fb; [|discriminate]. destruct (clauses1 F cls) as [r|] eqn:Fs; [|discriminate]. injection E as <-.
    constructor; eauto using okid2, L2_seq.
  Qed.
  (** A body run in place. *)
  Lemma L2_begin f b q : (forall g e e', g < f -> opt_L2 g e = Some e' -> good e = true -> opt2 e e') ->
    forall g, g < f -> opt_L2 g (begin1 b) = Some q -> forallb good b = true -> exists b', q = begin1 b' /\ opts2 b b'.
  Proof.
    intros IH g L E G. destruct b as [|e [|e1 es]].
    - destruct g; [discriminate|]. simpl in E. injection E as <-. exists []. split; auto. constructor.
    - simpl in *. bools. exists [q]. split; auto. constructor; [|constructor]. eapply IH; eauto.
    - destruct g as [|g]; [discriminate|]. cbn [begin1 opt_L2] in E.
      destruct (seq1 (opt_L2 g) (e :: e1 :: es)) as [b'|] eqn:Q; [|discriminate]. injection E as <-.
      assert (O : opts2 (e :: e1 :: es) b') by (apply (L2_seq (opt_L2 g)); auto; intros; eapply (IH g); eauto; lia).
      exists b'. split; auto. inversion O as [|? ? ? ? ? O1]; subst. inversion O1; subst. auto.
  Qed.

  Theorem L2_step f : forall e e', opt_L2 f e = Some e' -> good e = true -> opt2 e e'.
  Proof.
    induction f as [f IH] using (well_founded_induction lt_wf). intros e e' E G. destruct f as [|f]; [discriminate|].
    assert (IH1 : forall e e', opt_L2 f e = Some e' -> good e = true -> opt2 e e') by (intros; eapply (IH f); eauto; lia).
    assert (AP : forall g es q, appok g es && good g && forallb good es = true ->
              match opt_L2 f g, seq1 (opt_L2 f) es with Some g', Some es' => Some (EApp g' es') | _, _ => None end = Some q -> opt2 (EApp g es) q).
    { intros g es q GG Q. bools. destruct (opt_L2 f g) eqn:E1; [|discriminate]. destruct (seq1 (opt_L2 f) es) eqn:E2; [|discriminate].
      injection Q as <-. constructor; eauto using L2_seq. }
    destruct e; cbn [opt_L2] in E; simpl in G; bools; try discriminate.
    - injection E as <-. constructor. apply litb_lit. auto.
    - injection E as <-. constructor. auto.
    - injection E as <-. constructor. intros [].
    - destruct (opt_L2 f e) eqn:E1; [|discriminate]. injection E as <-. constructor; auto using okid2.
    - destruct (opt_L2 f e) eqn:E1; [|discriminate]. injection E as <-. constructor; auto. apply okid2 in H. inversion H; auto.
    - destruct (seq1 (opt_L2 f) body) eqn:E1; [|discriminate]. injection E as <-. constructor; eauto using okid2, L2_seq.
    - destruct (clauses1 (opt_L2 f) cls) eqn:E1; [|discriminate]. injection E as <-. constructor. eapply L2_clauses; eauto.
    - destruct (seq1 (opt_L2 f) es) eqn:E1; [|discriminate]. injection E as <-. constructor; eauto using L2_seq.
    - destruct (opt_L2 f e1) eqn:E1; [|discriminate]. destruct (opt_L2 f e2) eqn:E2; [|discriminate]. destruct (opt_L2 f e3) eqn:E3; [|discriminate].
      injection E as <-. constructor; auto.
    - destruct e; try (apply AP; [simpl in *; bools; auto|exact E]). destruct fm as [ids [y|]]; [apply AP; [simpl in *; bools; auto|exact E]|].
      (* an immediate call *)
      simpl in H1. rewrite fm_none in H1. bools. unfold imm_expr in E. destruct args as [|a [|a2 args]].
      + unfold appok in H. simpl in H. destruct ids; [|discriminate].
        destruct (L2_begin (S f) body e' ltac:(intros; eapply IH; eauto) f (Nat.lt_succ_diag_r f) E H2) as [b' [-> O]]. constructor. auto.
      + destruct f as [|f]; [discriminate|]. cbn [opt_L2] in E. simpl in H0. bools.
        destruct (opt_L2 f a) as [a'|] eqn:E1; [|discriminate]. destruct (opt_L2 f (begin1 body)) as [q|] eqn:E2; [|discriminate].
        injection E as <-. destruct (L2_begin (S (S f)) body q ltac:(intros; eapply IH; eauto) f ltac:(lia) E2 H2) as [b' [-> O]].
        constructor; auto using okid2; eapply (IH f); eauto; lia.
      + destruct f as [|f]; [discriminate|]. cbn [opt_L2] in E.
        destruct (opt_L2 f (EApp (EVar values_id) (a :: a2 :: args))) as [a'|] eqn:E1; [|discriminate].
        destruct (opt_L2 f (begin1 body)) as [q|] eqn:E2; [|discriminate].
        injection E as <-. destruct (L2_begin (S (S f)) body q ltac:(intros; eapply IH; eauto) f ltac:(lia) E2 H2) as [b' [-> O]].
        destruct f as [|f]; [discriminate|]. cbn [opt_L2] in E1.
        destruct (opt_L2 f (EVar values_id)) as [g'|] eqn:E3; [|discriminate].
        destruct (seq1 (opt_L2 f) (a :: a2 :: args)) as [es'|] eqn:E4; [|discriminate]. injection E1 as <-.
        destruct f as [|f]; [discriminate|]. injection E3 as <-.
        apply OAppN; auto using okid2. apply (L2_seq (opt_L2 (S f))); auto; intros; eapply (IH (S f)); eauto; lia.
    - destruct (opt_L2 f e1) eqn:E1; [|discriminate]. destruct (opt_L2 f e2) eqn:E2; [|discriminate].
      injection E as <-. eapply OMvCall; [apply IH1; eauto|apply IH1; eauto|constructor].
    - destruct (opt_L2 f e1) eqn:E1; [|discriminate]. destruct (opt_L2 f e2) eqn:E2; [|discriminate].
      injection E as <-. destruct ids as [xs [y|]]; [discriminate|]. simpl in *. constructor; auto using okid2.
    - destruct (seq1 (opt_L2 f) es) eqn:E1; [|discriminate]. injection E as <-. constructor; eauto using L2_seq.
  Qed.
End L2.

(** ** Source expressions: what the reader, the checker and earlier passes leave,
    with the restrictions under which the passes are right. *)
Definition oldid (N : nat) (x : ident) : bool := match x with Gen k => k <? N | Id _ => true end.
Fixpoint nodup (xs : list ident) : bool := match xs with [] => true | x :: r => negb (memb x r) && nodup r end.
Lemma nodup_NoDup xs : nodup xs = true -> NoDup xs.
Proof. induction xs; simpl; intros; constructor; bools; auto. apply memb_false. apply negb_true_iff. auto. Qed.
Definition newids (N : nat) (xs : list ident) : bool := forallb (oldid N) xs && nov xs.
Fixpoint src (N base : nat) (e : expr) : bool :=
  match e with
  | EConst v => litb base v
  | EVar x => oldid N x
  | EDefine ids e => newids N ids && src N base e
  | ESet x e => newids N [x] && src N base e
  | ELam fm b => newids N (fm_ids fm) && some b && forallb (src N base) b
  | ECase cls => some cls && forallb (fun c => newids N (fm_ids (fst c)) && some (snd c) && forallb (src N base) (snd c)) cls
  | EBegin es => some es && forallb (src N base) es
  | EIf a b c => src N base a && src N base b && src N base c
  | EApp g es => appok g es && src N base g && forallb (src N base) es
  | ELet bs b | ELetrec bs b =>
      newids N (let_ids bs) && nodup (let_ids bs) && forallb (fun p => some (fst p) && src N base (snd p)) bs &&
      some b && forallb (src N base) b
  | EValues es => some es && forallb (src N base) es
  | ECwv p c => appok p [] && consok c && src N base p && src N base c
  | EUnbound | EMvCall _ _ | EMvLet _ _ _ | EMvValues _ => false
  end.

Section L0.
  Variables N base : nat.
  Definition fresh (x : ident) : Prop := exists k, x = Gen k /\ N <= k.
  Notation opt0 := (opt fresh false false base).
  Notation opts0 := (opts fresh false false base).
  Notation optcs0 := (optcs fresh false false base).
  Notation optbs0 := (optbs fresh false false base).
  Notation good := (good1 base).
  Notation src := (src N base).

  Lemma old_not x : oldid N x = true -> ~ fresh x.
  Proof. intros O [k [-> L]]. simpl in O. apply Nat.ltb_lt in O. lia. Qed.
  Lemma okid0 xs : newids N xs = true -> Forall (okid fresh false) xs.
  Proof.
    unfold newids. intros H. bools. rewrite forallb_forall in H. apply Forall_forall. intros x I. split; [|discriminate]. apply old_not. auto.
  Qed.
  Lemma newids_nov xs : newids N xs = true -> nov xs = true.
  Proof. unfold newids. intros. bools. auto. Qed.
  Lemma tmps_nov n k : nov (tmp_ids n k) = true.
  Proof.
    unfold nov, tmp_ids. rewrite negb_true_iff, memb_false. intros I. apply in_map_iff in I. destruct I as [j [E _]]. discriminate.
  Qed.
  Lemma tmps_fresh n k : N <= n -> Forall (tmpid fresh false) (tmp_ids n k).
  Proof.
    intros L. unfold tmp_ids. apply Forall_forall. intros x I. apply in_map_iff in I. destruct I as [j [<- J]]. apply in_seq in J.
    split; [|discriminate]. exists j. split; auto. lia.
  Qed.
  Lemma tmps_nodup n k : NoDup (tmp_ids n k).
  Proof. unfold tmp_ids. apply FinFun.Injective_map_NoDup; [intros a b E; congruence|apply seq_NoDup]. Qed.
  Lemma tmps_app n a b : tmp_ids n (a + b) = tmp_ids n a ++ tmp_ids (n + a) b.
  Proof. unfold tmp_ids. rewrite seq_app, map_app. auto. Qed.
  Lemma tmps_length n k : List.length (tmp_ids n k) = k.
  Proof. unfold tmp_ids. rewrite map_length, seq_length. auto. Qed.

  Definition L0_ok (n : nat) (e e' : expr) (n' : nat) : Prop :=
    opt0 e e' /\ good e' = true /\ n <= n' /\
    (forall fm b, bare e' = ELam fm b -> exists b0, bare e = ELam fm b0) /\ (consok e = true -> consok e' = true).
  Definition L0_all (F : nat -> expr -> option (expr * nat)) : Prop :=
    forall n e e' n', F n e = Some (e', n') -> src e = true -> N <= n -> L0_ok n e e' n'.
  Lemma L0_seq F es : L0_all F -> forall n es' n', seq0 F n es = Some (es', n') -> forallb src es = true -> N <= n ->
    opts0 es es' /\ forallb good es' = true /\ n <= n' /\ some es' = some es.
  Proof.
    intros IH. induction es as [|e es IHl]; simpl; intros n es' n' E G L.
    - injection E as <- <-. repeat split; auto. constructor.
    - bools. destruct (F n e) as [[e1 n1]|] eqn:Fe; [|discriminate]. destruct (seq0 F n1 es) as [[r n2]|] eqn:Fs; [|discriminate]. injection E as <- <-.
      destruct (IH _ _ _ _ Fe H L) as [O [G1 [L1 _]]]. destruct (IHl _ _ _ Fs H0 ltac:(lia)) as [O2 [G2 [L2 _]]].
      split; [constructor; auto|]. split; [simpl; bools; auto|]. split; [lia|auto].
  Qed.
  Lemma L0_clauses F cls : L0_all F -> forall n cls' n', clauses0 F n cls = Some (cls', n') ->
    forallb (fun c => newids N (fm_ids (fst c)) && some (snd c) && forallb src (snd c)) cls = true -> N <= n ->
    optcs0 cls cls' /\ forallb (fun c => nov (fm_ids (fst c)) && some (snd c) && forallb good (snd c)) cls' = true /\ n <= n' /\
    map fst cls' = map fst cls.
  Proof.
    intros IH. induction cls as [|[fm b] cls IHl]; simpl; intros n cls' n' E G L.
    - injection E as <- <-. repeat split; auto. constructor.
    - bools. destruct (seq0 F n b) as [[b1 n1]|] eqn:Fb; [|discriminate]. destruct (clauses0 F n1 cls) as [[r n2]|] eqn:Fs; [|discriminate]. injection E as <- <-.
      destruct (L0_seq _ _ IH _ _ _ Fb H1 L) as [O [G1 [L1 S1]]]. destruct (IHl _ _ _ Fs H0 ltac:(lia)) as [O2 [G2 [L2 M2]]].
      split; [constructor; auto using okid0|]. split; [simpl; bools; auto using newids_nov; congruence|]. split; [lia|]. simpl. congruence.
  Qed.
  Lemma appok_bare g g' es es' : (forall fm b, bare g' = ELam fm b -> exists b0, bare g = ELam fm b0) ->
    some es' = some es -> appok g es = true -> appok g' es' = true.
  Proof.
    unfold appok. intros H S A. destruct (bare g') eqn:B; auto. destruct (H _ _ eq_refl) as [b0 E]. rewrite E in A. destruct fm as [ids [y|]]; auto. congruence.
  Qed.

  (** Shapes built by the pass. *)
  Lemma L0_cwv f m e xs b q m' : opt_L0 f m (ECwv (ELam (Formals [] None) [e]) (ELam (Formals xs None) b)) = Some (q, m') ->
    exists g e' b' m1, g < f /\ opt_L0 g m e = Some (e', m1) /\ seq0 (opt_L0 g) m1 b = Some (b', m') /\
      q = ECwv (ELam (Formals [] None) [e']) (ELam (Formals xs None) b').
  Proof.
    destruct f as [|[|g]]; try discriminate. cbn [opt_L0 seq0].
    destruct (opt_L0 g m e) as [[e' m1]|] eqn:E1; [|discriminate]. cbn.
    destruct (seq0 (opt_L0 g) m1 b) as [[b' m2]|] eqn:E2; [|discriminate]. intros E. injection E as <- <-. exists g, e', b', m1. auto.
  Qed.
  Lemma seq0_app F a b : forall n r n2, seq0 F n (a ++ b) = Some (r, n2) ->
    exists ra rb n1, seq0 F n a = Some (ra, n1) /\ seq0 F n1 b = Some (rb, n2) /\ r = ra ++ rb.
  Proof.
    induction a as [|e a IH]; simpl; intros n r n2 E; [exists [], r, n; auto|].
    destruct (F n e) as [[e1 n1]|]; [|discriminate]. destruct (seq0 F n1 (a ++ b)) as [[r1 n3]|] eqn:Q; [|discriminate]. injection E as <- <-.
    destruct (IH _ _ _ Q) as [ra [rb [n4 [A [B ->]]]]]. rewrite A. exists (e1 :: ra), rb, n4. auto.
  Qed.
  Lemma seq0_same F es : (forall n e q m, In e es -> F n e = Some (q, m) -> q = e /\ m = n) ->
    forall n r n', seq0 F n es = Some (r, n') -> r = es /\ n' = n.
  Proof.
    induction es as [|e es IH]; simpl; intros H n r n' E; [injection E as <- <-; auto|].
    destruct (F n e) as [[e1 n1]|] eqn:Fe; [|discriminate]. destruct (seq0 F n1 es) as [[r1 n2]|] eqn:Fs; [|discriminate]. injection E as <- <-.
    destruct (H _ _ _ _ (or_introl eq_refl) Fe) as [-> ->]. destruct (IH ltac:(intros; eapply H; eauto) _ _ _ Fs) as [-> ->]. auto.
  Qed.
  Lemma L0_vars g ts n r n' : seq0 (opt_L0 g) n (map EVar ts) = Some (r, n') -> r = map EVar ts /\ n' = n.
  Proof.
    apply seq0_same. intros m e q k I E. apply in_map_iff in I. destruct I as [t [<- _]]. destruct g; [discriminate|]. injection E as <- <-. auto.
  Qed.
  Lemma L0_imm f m ids b ts q m' : opt_L0 f m (EApp (ELam (Formals ids None) b) (map EVar ts)) = Some (q, m') ->
    exists g b', g < f /\ seq0 (opt_L0 g) m b = Some (b', m') /\ q = EApp (ELam (Formals ids None) b') (map EVar ts).
  Proof.
    destruct f as [|f]; [discriminate|]. cbn [opt_L0 seq0].
    destruct (opt_L0 f m (ELam (Formals ids None) b)) as [[g' m1]|] eqn:E1; [|discriminate].
    destruct (seq0 (opt_L0 f) m1 (map EVar ts)) as [[es' m2]|] eqn:E2; [|discriminate]. intros Q. injection Q as <- <-.
    apply L0_vars in E2. destruct E2 as [-> ->]. destruct f as [|f]; [discriminate|]. cbn [opt_L0] in E1.
    destruct (seq0 (opt_L0 f) m b) as [[b' m2]|] eqn:E2; [|discriminate]. injection E1 as <- <-. exists f, b'. auto.
  Qed.
  Lemma L0_unbound g k n r n' : opt_L0 g n (EValues (repeat EUnbound k)) = Some (r, n') -> r = EValues (repeat EUnbound k) /\ n' = n.
  Proof.
    destruct g as [|g]; [discriminate|]. cbn [opt_L0]. destruct (seq0 (opt_L0 g) n (repeat EUnbound k)) as [[r1 n1]|] eqn:E; [|discriminate].
    intros Q. injection Q as <- <-. apply seq0_same in E; [destruct E as [-> ->]; auto|].
    intros m e q j I Q. apply repeat_spec in I. subst e. destruct g; [discriminate|]. injection Q as <- <-. auto.
  Qed.
  Lemma L0_assign g xs ts n r n' : some xs = true -> seq0 (opt_L0 g) n (sets xs ts) = Some (r, n') -> r = sets xs ts /\ n' = n.
  Proof.
    intros S. unfold sets. destruct xs as [|x xs]; [discriminate|]. apply seq0_same. intros m e q k I E. apply in_map_iff in I. destruct I as [[y t] [<- _]].
    destruct g as [|[|g]]; try discriminate. injection E as <- <-. auto.
  Qed.
  Lemma good_sets xs ts : some xs = true -> nov xs = true -> forallb good (sets xs ts) = true.
  Proof.
    intros S V. unfold sets. destruct xs as [|x xs]; [discriminate|]. clear S. revert ts V. induction (x :: xs) as [|y ys IH]; intros ts V; auto.
    destruct ts as [|t ts]; auto. simpl combine. simpl map. simpl forallb. unfold nov in *. simpl in *.
    unfold memb in V. simpl in V. unfold memb. simpl. destruct (ident_eqb y values_id); [discriminate|]. simpl. apply IH. auto.
  Qed.
  Lemma some_len {A B} (a : list A) (b : list B) : List.length a = List.length b -> some a = some b.
  Proof. destruct a, b; simpl; auto; discriminate. Qed.
  Lemma nov_app a b : nov (a ++ b) = nov a && nov b.
  Proof.
    unfold nov. rewrite <- negb_orb. f_equal. apply eq_true_iff_eq. rewrite orb_true_iff, !memb_In, in_app_iff. tauto.
  Qed.

  Lemma L0_letn f body : (forall g, g < f -> L0_all (opt_L0 g)) -> some body = true -> forallb src body = true ->
    forall bs g n m ids tmps inner n1 q m1, g < f ->
    let_values2 n bs ids tmps body = (inner, n1) -> opt_L0 g m inner = Some (q, m1) -> N <= n -> N <= m ->
    forallb (fun p => some (fst p) && src (snd p)) bs = true ->
    nov ids = true -> nov (let_ids bs) = true -> List.length ids = List.length tmps ->
    exists bs' tss b', q = letn bs' tss ids tmps b' /\ optbs0 bs bs' /\ opts0 body b' /\
      Forall2 (fun p ts => List.length ts = List.length (fst p)) bs tss /\
      List.concat tss = tmp_ids n (List.length (let_ids bs)) /\ n1 = n + List.length (let_ids bs) /\ m <= m1 /\ good q = true /\ bare q = q /\ islam q = false.
  Proof.
    intros IH SB WB. induction bs as [|[xs e] bs IHb]; intros g n m ids tmps inner n1 q m1 LT E Q LN LM W VI VL LI.
    - simpl in E. injection E as <- <-. apply L0_imm in Q. destruct Q as [h [b' [LH [E1 ->]]]]. destruct (L0_seq _ _ (IH h ltac:(lia)) _ _ _ E1 WB LM) as [O [G [L S1]]].
      exists [], [], b'. simpl. split; auto. split; [constructor|]. split; auto. split; [constructor|]. split; auto. split; [lia|]. split; auto.
      split; [|auto]. rewrite fm_none. bools; auto; [|congruence|].
      + unfold appok. simpl. rewrite (some_len ids (map EVar tmps)) by (rewrite map_length; auto). apply eqb_reflx.
      + clear. induction tmps; auto.
    - simpl in E. simpl in W. bools. unfold let_ids in VL. simpl in VL. rewrite nov_app in VL. bools. fold (let_ids bs) in H3.
      destruct (let_values2 (n + List.length xs) bs (xs ++ ids) (tmp_ids n (List.length xs) ++ tmps) body) as [inner1 n2] eqn:E1. injection E as <- <-.
      apply L0_cwv in Q. destruct Q as [h [e' [b' [m2 [LH [Q1 [Q2 ->]]]]]]]. simpl in Q2.
      destruct (opt_L0 h m2 inner1) as [[q1 m3]|] eqn:Q3; [|discriminate]. injection Q2 as <- <-.
      destruct (IH h ltac:(lia) _ _ _ _ Q1 H1 LM) as [O [G [L _]]].
      destruct (IHb h _ _ _ _ _ _ _ _ ltac:(lia) E1 Q3) as [bs' [tss [b' [-> [O2 [O3 [F [C [-> [L2 [G2 _]]]]]]]]]]]; auto; try lia.
      { rewrite nov_app. bools; auto. }
      { rewrite !app_length, tmps_length. lia. }
      exists ((xs, e') :: bs'), (tmp_ids n (List.length xs) :: tss), b'. split; auto. split; [constructor; auto|]. split; auto.
      split; [constructor; auto; apply tmps_length|]. unfold let_ids. simpl. rewrite app_length. fold (let_ids bs).
      split; [rewrite tmps_app, C; auto|]. split; [lia|]. split; [lia|]. split; [|auto]. rewrite fm_none. unfold nov at 1. simpl. bools; auto; [|apply tmps_nov].
      unfold consfm. simpl. rewrite <- H. apply some_len, tmps_length.
  Qed.

  Lemma L0_sets f : (forall g, g < f -> L0_all (opt_L0 g)) -> forall bs g n m es n1 es' m1, g < f ->
    set_exprs n bs = (es, n1) -> seq0 (opt_L0 g) m es = Some (es', m1) -> N <= n -> N <= m ->
    forallb (fun p => some (fst p) && src (snd p)) bs = true -> nov (let_ids bs) = true ->
    exists bs' tss, es' = recsets bs' tss /\ optbs0 bs bs' /\
      Forall2 (fun p ts => List.length ts = List.length (fst p)) bs tss /\
      List.concat tss = tmp_ids n (List.length (let_ids bs)) /\ n1 = n + List.length (let_ids bs) /\ m <= m1 /\ forallb good es' = true.
  Proof.
    intros IH. induction bs as [|[xs e] bs IHb]; intros g n m es n1 es' m1 LT E Q LN LM W VL.
    - simpl in E. injection E as <- <-. injection Q as <- <-. exists [], []. repeat split; auto; try constructor; try (simpl; lia).
    - simpl in E. simpl in W. bools. unfold let_ids in VL. simpl in VL. rewrite nov_app in VL. bools. fold (let_ids bs) in H3.
      destruct (set_exprs (n + List.length xs) bs) as [es1 n2] eqn:E1. injection E as <- <-.
      simpl in Q. destruct (opt_L0 g m (set_expr n (xs, e))) as [[q m2]|] eqn:Q1; [|discriminate].
      destruct (seq0 (opt_L0 g) m2 es1) as [[r m3]|] eqn:Q2; [|discriminate]. injection Q as <- <-.
      destruct g as [|g]; [discriminate|]. cbn [opt_L0 set_expr let_expr] in Q1.
      change (opt_L0 g m (ECwv (ELam (Formals [] None) [e]) (ELam (Formals (tmp_ids n (List.length xs)) None) (sets xs (tmp_ids n (List.length xs))))) = Some (q, m2)) in Q1.
      apply L0_cwv in Q1. destruct Q1 as [h [e' [b' [m4 [LH [Q1 [Q3 ->]]]]]]].
      apply L0_assign in Q3; auto. destruct Q3 as [-> ->].
      destruct (IH h ltac:(lia) _ _ _ _ Q1 H1 LM) as [O [G [L _]]].
      destruct (IHb _ _ _ _ _ _ _ LT E1 Q2) as [bs' [tss [-> [O2 [F [C [-> [L2 G2]]]]]]]]; auto; try lia.
      exists ((xs, e') :: bs'), (tmp_ids n (List.length xs) :: tss). split; auto. split; [constructor; auto|].
      split; [constructor; auto; apply tmps_length|]. unfold let_ids. simpl. rewrite app_length. fold (let_ids bs).
      split; [rewrite tmps_app, C; auto|]. split; [lia|]. split; [lia|]. rewrite fm_none. unfold nov at 1. simpl. bools; auto using good_sets, tmps_nov.
      + unfold consfm. simpl. rewrite <- H. apply some_len, tmps_length.
      + apply (tmps_nov n).
      + destruct xs as [|x xs]; [discriminate|]. reflexivity.
  Qed.

  Lemma let_values2_n body : forall bs n ids tmps inner n1, let_values2 n bs ids tmps body = (inner, n1) -> n1 = n + List.length (let_ids bs).
  Proof.
    induction bs as [|[xs e] bs IH]; simpl; intros n ids tmps inner n1 E; [injection E as <- <-; lia|].
    destruct (let_values2 (n + List.length xs) bs (xs ++ ids) (tmp_ids n (List.length xs) ++ tmps) body) eqn:E1. injection E as <- <-.
    rewrite (IH _ _ _ _ _ E1). unfold let_ids. simpl. rewrite app_length. lia.
  Qed.
  Lemma set_exprs_n : forall bs n es n1, set_exprs n bs = (es, n1) -> n1 = n + List.length (let_ids bs).
  Proof.
    induction bs as [|[xs e] bs IH]; simpl; intros n es n1 E; [injection E as <- <-; lia|].
    destruct (set_exprs (n + List.length xs) bs) eqn:E1. injection E as <- <-.
    rewrite (IH _ _ _ E1). unfold let_ids. simpl. rewrite app_length. lia.
  Qed.

  Theorem L0_step f : L0_all (opt_L0 f).
  Proof.
    induction f as [f IH] using (well_founded_induction lt_wf). intros n e e' n' E G LN. destruct f as [|f]; [discriminate|].
    assert (IH1 : L0_all (opt_L0 f)) by (apply IH; lia).
    destruct e; cbn [opt_L0] in E; simpl in G; bools; try discriminate.
    - injection E as <- <-. repeat split; auto; try discriminate. constructor. apply litb_lit. auto.
    - injection E as <- <-. repeat split; auto; try discriminate. constructor. apply old_not. auto.
    - destruct (opt_L0 f n e) as [[e1 n1]|] eqn:E1; [|discriminate]. injection E as <- <-. destruct (IH1 _ _ _ _ E1 H0 LN) as [O [G1 [L _]]].
      repeat split; auto; try discriminate; [constructor; auto using okid0|]. simpl. bools; auto using newids_nov.
    - destruct (opt_L0 f n e) as [[e1 n1]|] eqn:E1; [|discriminate]. injection E as <- <-. destruct (IH1 _ _ _ _ E1 H0 LN) as [O [G1 [L _]]].
      repeat split; auto; try discriminate; [constructor; auto; apply okid0 in H; inversion H; auto|]. simpl. bools; auto using newids_nov.
    - destruct (seq0 (opt_L0 f) n body) as [[b' n1]|] eqn:E1; [|discriminate]. injection E as <- <-. destruct (L0_seq _ _ IH1 _ _ _ E1 H0 LN) as [O [G1 [L S1]]].
      split; [constructor; auto using okid0|]. split; [simpl; bools; auto using newids_nov; congruence|]. split; auto. split; auto. simpl. intros fm0 b Q. injection Q as <- <-. eauto.
    - destruct cls as [|[fm b] [|c cls]].
      + discriminate.
      + simpl in H0. bools. destruct f as [|f]; [discriminate|]. cbn [opt_L0] in E.
        destruct (seq0 (opt_L0 f) n b) as [[b' n1]|] eqn:E1; [|discriminate]. injection E as <- <-.
        destruct (L0_seq _ _ (IH f ltac:(lia)) _ _ _ E1 ltac:(eassumption) LN) as [O [G1 [L S1]]].
        split; [constructor; auto using okid0|]. split; [simpl; bools; auto using newids_nov; congruence|]. split; auto. split; auto.
        simpl. intros fm0 b0 Q. injection Q as <- <-. eauto.
      + destruct (clauses0 (opt_L0 f) n ((fm, b) :: c :: cls)) as [[cls' n1]|] eqn:E1; [|discriminate]. injection E as <- <-.
        destruct (L0_clauses _ _ IH1 _ _ _ E1 H0 LN) as [O [G1 [L M]]].
        destruct cls' as [|[fm1 b1] [|c1 cls1]]; try discriminate.
        split; [constructor; auto|]. split; [simpl oneclause; cbn [negb andb good1 some]; exact G1|]. split; auto. split; [discriminate|]. auto.
    - destruct (seq0 (opt_L0 f) n es) as [[b' n1]|] eqn:E1; [|discriminate]. injection E as <- <-. destruct (L0_seq _ _ IH1 _ _ _ E1 H0 LN) as [O [G1 [L S1]]].
      repeat split; auto; try discriminate; [constructor; auto|]. simpl. bools; auto; congruence.
    - cbn [seq0] in E. destruct (opt_L0 f n e1) as [[a n1]|] eqn:E1; [|discriminate]. destruct (opt_L0 f n1 e2) as [[b n2]|] eqn:E2; [|discriminate].
      destruct (opt_L0 f n2 e3) as [[c n3]|] eqn:E3; [|discriminate]. injection E as <- <-.
      destruct (IH1 _ _ _ _ E1 H LN) as [O1 [G1 [L1 _]]]. destruct (IH1 _ _ _ _ E2 H1 ltac:(lia)) as [O2 [G2 [L2 _]]]. destruct (IH1 _ _ _ _ E3 H0 ltac:(lia)) as [O3 [G3 [L3 _]]].
      repeat split; auto; try discriminate; [constructor; auto| |lia]. simpl. bools; auto.
    - cbn [seq0] in E. destruct (opt_L0 f n e) as [[g n1]|] eqn:E1; [|discriminate]. destruct (seq0 (opt_L0 f) n1 args) as [[es n2]|] eqn:E2; [|discriminate]. injection E as <- <-.
      destruct (IH1 _ _ _ _ E1 H1 LN) as [O1 [G1 [L1 [B1 _]]]]. destruct (L0_seq _ _ IH1 _ _ _ E2 H0 ltac:(lia)) as [O2 [G2 [L2 S2]]].
      repeat split; auto; try discriminate; [constructor; auto| |lia]. simpl. bools; eauto using appok_bare.
    - (* let-values *)
      assert (W := H2). assert (NV := newids_nov _ H). destruct bs as [|[xs e] [|b2 bs]].
      + cbn [let_expr] in E. destruct f as [|f]; [discriminate|]. cbn [opt_L0] in E.
        destruct (seq0 (opt_L0 f) n body) as [[b' n1]|] eqn:E1; [|discriminate]. injection E as <- <-.
        destruct (L0_seq _ _ (IH f ltac:(lia)) _ _ _ E1 H0 LN) as [O [G1 [L S1]]].
        repeat split; auto; try discriminate; [constructor; auto|]. simpl. bools; auto; congruence.
      + cbn [let_expr] in E. simpl in W. bools. unfold let_ids in *. simpl in H, NV. rewrite app_nil_r in *.
        apply L0_cwv in E. destruct E as [g [e1 [b1 [m1 [LT [E1 [E2 ->]]]]]]].
        destruct (IH g ltac:(lia) _ _ _ _ E1 H6 LN) as [O1 [G1 [L1 _]]]. destruct (L0_seq _ _ (IH g ltac:(lia)) _ _ _ E2 H0 ltac:(lia)) as [O2 [G2 [L2 S2]]].
        split; [constructor; auto using okid0|]. split; [|split; [lia|]; split; discriminate]. simpl. rewrite fm_none. bools; auto. congruence.
      + destruct (let_expr n ((xs, e) :: b2 :: bs) body) as [e1 n1] eqn:E1. cbn [let_expr] in E1.
        destruct (L0_letn (S f) body IH H1 H0 _ f _ _ _ _ _ _ _ _ ltac:(lia) E1 E) as [bs' [tss [b' [-> [O1 [O2 [F [C [-> [L [G1 [B1 N1]]]]]]]]]]]]; auto; try lia.
        { rewrite (let_values2_n _ _ _ _ _ _ _ E1). lia. }
        split; [apply OLetN; auto using okid0, nodup_NoDup; rewrite C; auto using tmps_fresh, tmps_nodup|]. split; auto.
        split; [lia|]. split; [|discriminate]. rewrite B1. intros fm b Q. rewrite Q in N1. discriminate.
    - (* letrec-values *)
      assert (W := H2). assert (NV := newids_nov _ H). destruct bs as [|b1 bs].
      + cbn [letrec_expr] in E. destruct f as [|f]; [discriminate|]. cbn [opt_L0] in E.
        destruct (seq0 (opt_L0 f) n body) as [[b' n1]|] eqn:E1; [|discriminate]. injection E as <- <-.
        destruct (L0_seq _ _ (IH f ltac:(lia)) _ _ _ E1 H0 LN) as [O [G1 [L S1]]].
        repeat split; auto; try discriminate; [constructor; auto|]. simpl. bools; auto; congruence.
      + unfold letrec_expr in E. assert (SI : some (let_ids (b1 :: bs)) = true).
        { simpl in W. bools. destruct b1 as [[|x xs] e1]; [discriminate|]. reflexivity. }
        assert (LE : 1 <= List.length (let_ids (b1 :: bs))) by (destruct (let_ids (b1 :: bs)); [discriminate|simpl; lia]).
        remember (b1 :: bs) as bs1 eqn:QB. clear QB b1 bs.
        destruct (set_exprs n bs1) as [es n1] eqn:E1. destruct f as [|f]; [discriminate|]. cbn [opt_L0 let_expr] in E.
        apply L0_cwv in E. destruct E as [g [u [b' [m1 [LT [E2 [E3 ->]]]]]]]. apply L0_unbound in E2. destruct E2 as [-> ->].
        apply seq0_app in E3. destruct E3 as [es' [b2 [m2 [E3 [E4 ->]]]]].
        assert (n1 = n + List.length (let_ids bs1)) by (eapply set_exprs_n; eauto).
        destruct (L0_sets (S (S f)) IH _ g _ _ _ _ _ _ ltac:(lia) E1 E3) as [bs' [tss [-> [O1 [F [C [_ [L1 G1]]]]]]]]; auto; try lia.
        destruct (L0_seq _ _ (IH g ltac:(lia)) _ _ _ E4 H0 ltac:(lia)) as [O2 [G2 [L2 S2]]].
        split; [apply OLetrec; auto using okid0, nodup_NoDup; [intros ->; discriminate| |]; rewrite C; auto using tmps_fresh, tmps_nodup|].
        split; [|split; [lia|]; split; discriminate].
        simpl. rewrite fm_none. unfold consfm. simpl. bools; auto.
        * destruct (List.length (let_ids bs1)); [lia|]. auto.
        * clear. induction (List.length (let_ids bs1)); auto.
        * destruct (recsets bs' tss); auto. simpl. congruence.
        * rewrite forallb_app. bools; auto.
    - destruct (seq0 (opt_L0 f) n es) as [[b' n1]|] eqn:E1; [|discriminate]. injection E as <- <-. destruct (L0_seq _ _ IH1 _ _ _ E1 H0 LN) as [O [G1 [L S1]]].
      repeat split; auto; try discriminate; [constructor; auto|simpl; bools; auto; congruence|].
      intros fm b Q. destruct es as [|e1 [|e2 es]]; [discriminate| |].
      + cbn [seq0] in E1. simpl in H0. bools. destruct (opt_L0 f n e1) as [[q n2]|] eqn:E2; [|discriminate]. injection E1 as <- <-.
        destruct (IH1 _ _ _ _ E2 H0 LN) as [_ [_ [_ [B _]]]]. simpl in *. eauto.
      + inversion O as [|? ? ? ? ? O1]; subst. inversion O1; subst. discriminate.
    - cbn [seq0] in E. destruct (opt_L0 f n e1) as [[p n1]|] eqn:E1; [|discriminate]. destruct (opt_L0 f n1 e2) as [[c n2]|] eqn:E2; [|discriminate]. injection E as <- <-.
      destruct (IH1 _ _ _ _ E1 H1 LN) as [O1 [G1 [L1 [B1 _]]]]. destruct (IH1 _ _ _ _ E2 H0 ltac:(lia)) as [O2 [G2 [L2 [_ C2]]]].
      repeat split; auto; try discriminate; [constructor; auto| |lia]. simpl. bools; eauto using appok_bare.
  Qed.
End L0.
