(** Specification of syntax-rules and lemmas. *)
From Coq Require Import ZArith NArith Bool Ascii String List Arith Lia.
From Verif Require Import Base Check Expand LibRead LibReadProofs StxCase StxCaseProofs StxCaseThm Template TemplateProofs TemplateThm SynRules.
Import ListNotations.
Local Open Scope list_scope.
Local Open Scope nat_scope.

(** * Specification *)

(** What follows the keyword in the pattern of a rule: a sequence of patterns with an
    optional tail, with or without an ellipsis. *)
Inductive args : Type :=
| AList (ps : list pat) (tl : option pat)
| AEll (ps : list pat) (p : pat) (qs : list pat) (tl : option pat).
(** A rule: [((key . args) body)]. *)
Record rule : Type := Rule { key : list byte; rargs : args; body : tmpl }.
(** The pattern with a given pattern in the place of the keyword. *)
Definition headed (h : pat) (a : args) : pat :=
  match a with
  | AList ps tl => PList (h :: ps) tl
  | AEll ps p qs tl => PEll (h :: ps) p qs tl
  end.
(** What the rule has to match: anything in the place of the keyword, then the
    arguments. *)
Definition rule_pat (r : rule) : pat := headed PWild (rargs r).

(** The text of the rules. *)
Definition pat_text (p : pat) : obj := strip (pobj p).
Definition rule_text (r : rule) : obj :=
  of_list [pat_text (headed (PVar (key r)) (rargs r)); strip (tobj (body r))].
Definition rules_text (lits : list (list byte)) (rs : list rule) : obj :=
  OPair (OSym (s2b "syntax-rules")) (OPair (of_list (map OSym lits)) (of_list (map rule_text rs))).

(** The depth of each variable of a pattern. *)
Definition depths (p : pat) : env := env_of p (map (fun _ => ONull) (vars 0 p)).
(** Templates whose text reads back as themselves: a tail is not (). *)
Inductive normal : tmpl -> Prop :=
| NoConst : forall d, strip d = d -> normal (TConst d)
| NoId : forall x, normal (TId x)
| NoRep : forall t, normal t -> normal (TRep t)
| NoList : forall es tl, Forall normal es -> (forall t, tl = Some t -> normal t /\ t <> TConst ONull) -> normal (TList es tl)
| NoVec : forall es, Forall normal es -> normal (TVec es).
(** No wildcard and no literal tail among the arguments. *)
Definition tame_args (a : args) : Prop :=
  match a with
  | AList ps tl => Forall (fun p => tame p /\ p <> PWild) ps /\ forall d, tl <> Some (PLit d)
  | AEll ps p qs tl => Forall (fun p => tame p /\ p <> PWild) ps /\ tame p /\ Forall (fun p => tame p /\ p <> PWild) qs /\
                       forall d, tl <> Some (PLit d)
  end.
(** literals of the patterns are data without syntax objects *)
Definition rule_ok (lits : list (list byte)) (r : rule) : Prop :=
  wf (map OSym lits) (rule_pat r) /\ tame_args (rargs r) /\ NoDup (map fst (vars 0 (rule_pat r))) /\
  tok (body r) /\ normal (body r) /\
  enough (depths (rule_pat r)) 0 (body r) /\ driven (depths (rule_pat r)) 0 (body r).

(** * Matching the pattern of a rule *)
Definition pairp (e : obj) : Prop := exists a d, stx_pair e = Some (a, d).
Lemma wild_decided : forall ps k e, Forall (fun p => settled p /\ p <> PWild) ps -> fl e -> pairp e \/ stx_null e = true ->
  (forall e', fl e' -> decided (k e')) -> decided (aseq amatch k (PWild :: ps) e).
Proof.
  intros ps k e ST F HP HK. cbn [aseq]. destruct (stx_null e) eqn:N; [left; auto|].
  destruct HP as [[a [d E]]|]; [|discriminate]. rewrite E. destruct (fl_pair _ _ _ F E) as [Fa Fd].
  apply aseq_decided; auto. right; auto.
Qed.
Lemma settled_all : forall lits l, Forall (wf lits) l -> Forall (fun p => tame p /\ p <> PWild) l -> Forall (fun p => settled p /\ p <> PWild) l.
Proof.
  intros lits l W T. induction W; constructor; inversion T; subst; auto. split; [|tauto]. apply (amatch_decided lits); tauto.
Qed.
Lemma rule_decided : forall lits a e, wf lits (headed PWild a) -> tame_args a -> flat e -> pairp e -> decided (amatch (headed PWild a) e).
Proof.
  intros lits a e W T F HP. assert (Fe : fl e) by (left; auto).
  destruct a as [ps tl|ps p qs tl]; cbn [headed tame_args] in *.
  - destruct T as [TF TT]. inversion W as [| | |? ? WF WT| | |]; subst. inversion WF; subst.
    change (decided (aseq amatch (tail_of tl) (PWild :: ps) e)). apply wild_decided; auto.
    + eapply settled_all; eauto.
    + intros e' F'. destruct tl as [t|]; cbn.
      * destruct (WT t eq_refl) as [Wt [St _]]. destruct t; cbn in St; try contradiction; try (right; eexists; reflexivity).
        exfalso. eapply TT; reflexivity.
      * destruct (stx_null e'); unfold decided; eauto.
  - destruct T as [TF [Tp [TQ TT]]]. inversion W as [| | | |? ? ? ? WF Wp WQ WT| |]; subst. inversion WF; subst.
    assert (SP : Forall (fun p => settled p /\ p <> PWild) ps) by (eapply settled_all; eauto).
    assert (SQ : Forall (fun p => settled p /\ p <> PWild) qs) by (eapply settled_all; eauto).
    pose proof (amatch_decided _ _ Wp Tp) as Sp. pose proof (amatch_sound _ _ Wp) as SDp.
    assert (TD : forall e', fl e' -> decided (tail_of tl e')).
    { intros e' F'. destruct tl as [t|]; cbn.
      + destruct (WT t eq_refl) as [Wt St]. destruct t; cbn in St; try contradiction; try (right; eexists; reflexivity).
        exfalso. eapply TT; reflexivity.
      + destruct (stx_null e'); unfold decided; eauto. }
    destruct (Nat.eq_dec (length qs + tailcount tl) 0) as [Z0|NZ].
    + destruct qs; [|cbn in Z0; lia]. destruct tl; [cbn in Z0; lia|].
      change (decided (aseq amatch (aell amatch p) (PWild :: ps) e)). apply wild_decided; auto. intros; apply aell_decided; auto.
    + rewrite amatch_ell_S by lia. cbv zeta.
      destruct (spine_total e) as [es [rest [SPN NP]]].
      set (n := Z.of_nat (length qs + tailcount tl)) in *.
      assert (LE : (base_count (isnone tl) rest <= n)%Z).
      { unfold base_count, n. destruct tl; cbn [isnone tailcount]; [lia|]. destruct (stx_null rest); lia. }
      destruct (split_spec n (isnone tl) es e rest SPN NP LE) as [[L EQ]|[pre [es2 [post [-> [S1 [S2 [L EQ]]]]]]]]; rewrite EQ.
      { replace (_ =? n)%Z with false by (symmetry; apply Z.eqb_neq; lia). left; auto. }
      rewrite Z.eqb_refl. destruct (fl_spine _ _ _ Fe S1) as [Fpre Fpost]. apply mapp_decided.
      * apply wild_decided; auto using fl_of_list; [|intros; apply aell_decided; auto].
        destruct pre as [|x pre]; [right; reflexivity|]. left. exists x, (of_list pre). reflexivity.
      * apply aseq_decided; auto.
Qed.
Lemma rule_match : forall lits a, wf lits (headed PWild a) -> tame_args a -> exists N, forall e, flat e -> pairp e -> forall f, N <= f ->
  (exists bs, gmatch lits f (pobj (headed PWild a)) e = MOk bs /\ pm (headed PWild a) e bs) \/
  (gmatch lits f (pobj (headed PWild a)) e = MNo /\ ~ exists bs, pm (headed PWild a) e bs).
Proof.
  intros lits a W T. exists (psize (headed PWild a)). intros e F HP f Hf. rewrite (gmatch_amatch lits _ W f e Hf).
  destruct (rule_decided lits a e W T F HP) as [E|[bs E]]; rewrite E.
  - right. split; auto. intros [bs P]. destruct (amatch_complete _ _ W _ _ (or_introl F) P); congruence.
  - left. exists bs. split; auto. eapply amatch_sound; eauto.
Qed.

(** * Environments *)
Lemma bind_vars_env : forall lits p, wf lits p -> exists N, forall f bs, N <= f -> bind_vars lits f (pobj p) bs = env_of p bs.
Proof.
  intros lits p W. destruct (C58_variables lits p W) as [N H]. exists N. intros f bs Hf. destruct (H f Hf) as [G _].
  unfold bind_vars. rewrite G. reflexivity.
Qed.
Section Ext.
  Variables r1 r2 : env.
  Hypothesis SAME : forall x, option_map fst (r1 x) = option_map fst (r2 x).
  Lemma enough_ext : forall t d, enough r1 d t -> enough r2 d t.
  Proof.
    intros t. induction t using tmpl_ind_strong; intros d0 HE; cbn [enough] in *; auto.
    - specialize (SAME x). destruct (r1 x) as [[]|], (r2 x) as [[]|]; cbn in SAME; try discriminate; auto. injection SAME as ->. auto.
    - apply fold_and in HE. apply fold_and. destruct HE as [HF HT]. split.
      + clear - H HF. induction H; constructor; inversion HF; subst; auto.
      + destruct tl; auto.
    - apply fold_and in HE. apply fold_and. destruct HE as [HF HT]. split; auto.
      clear - H HF. induction H; constructor; inversion HF; subst; auto.
  Qed.
  Lemma driven_ext : forall t d, driven r1 d t -> driven r2 d t.
  Proof.
    intros t. induction t using tmpl_ind_strong; intros d0 HE; cbn [driven] in *; auto.
    - destruct HE as [[x [p [v [HI [E L]]]]] HD]. split; auto. specialize (SAME x). rewrite E in SAME. cbn in SAME.
      destruct (r2 x) as [[q w]|] eqn:E2; cbn in SAME; try discriminate. injection SAME as <-. exists x, p, w. auto.
    - apply fold_and in HE. apply fold_and. destruct HE as [HF HT]. split.
      + clear - H HF. induction H; constructor; inversion HF; subst; auto.
      + destruct tl; auto.
    - apply fold_and in HE. apply fold_and. destruct HE as [HF HT]. split; auto.
      clear - H HF. induction H; constructor; inversion HF; subst; auto.
  Qed.
End Ext.
Lemma depths_env : forall p bs, length bs = length (vars 0 p) -> forall x, option_map fst (depths p x) = option_map fst (env_of p bs x).
Proof.
  intros p bs L x. unfold depths, env_of. revert bs L. induction (vars 0 p) as [|[[] n] vs IH]; intros [|b bs] L; cbn in L; try discriminate; try reflexivity;
    cbn [map combine find fst snd]; try (apply IH; lia).
  destruct (list_eq_dec ascii_dec name x); [reflexivity|]. apply IH. lia.
Qed.

(** * The text reads back *)
Lemma strip_syn : forall e l, strip (OSyntax e l) = strip e. Proof. reflexivity. Qed.
Lemma strip_chain' : forall es t, strip (chain es t) = chain (map strip es) (strip t).
Proof. induction es; intros; cbn; auto. f_equal. apply IHes. Qed.
Lemma totail_chain_map : forall es t, totail (chain es t) = chain (map to_stx es) (totail t).
Proof. induction es; intros; cbn [chain fold_right map totail]; auto. f_equal. apply IHes. Qed.
Lemma chain_stx : forall es t, es <> [] -> to_stx (chain es t) = OSyntax (chain (map to_stx es) (totail t)) OFalse.
Proof.
  intros [|a es] t H; [congruence|]. cbn [chain fold_right map]. rewrite to_stx_pair. f_equal. f_equal. apply totail_chain_map.
Qed.
Lemma literal_same : forall lits d, literal lits d -> strip d = d /\ to_stx d = OSyntax d OFalse /\ (forall l, totail d = OSyntax d l -> True).
Proof. intros lits d H. destruct d; cbn in H; try contradiction; auto. Qed.
Lemma dots_same : to_stx (strip DOTS) = DOTS. Proof. reflexivity. Qed.
Lemma pat_reads : forall lits p, wf lits p -> to_stx (strip (pobj p)) = pobj p /\ (simple p -> totail (strip (pobj p)) = pobj p).
Proof.
  assert (L : forall lits ps, Forall (fun p => wf lits p -> to_stx (strip (pobj p)) = pobj p /\ (simple p -> totail (strip (pobj p)) = pobj p)) ps ->
    Forall (wf lits) ps -> map to_stx (map strip (map pobj ps)) = map pobj ps).
  { intros lits ps H W. induction H; cbn; auto. inversion W; subst. f_equal; auto. apply H; auto. }
  intros lits p. induction p using pat_ind_strong; intros W.
  - split; reflexivity.
  - split; reflexivity.
  - inversion W as [| |? LT| | | |]; subst. destruct d; cbn in LT; try contradiction; split; reflexivity.
  - inversion W as [| | |? ? WF WT| | |]; subst. split; [|intros []]. cbn [pobj]. rewrite strip_syn, strip_chain'.
    assert (TT : totail (strip (tailobj tl)) = tailobj tl).
    { destruct tl as [t|]; [|reflexivity]. destruct (WT t eq_refl) as [Wt [St _]]. cbn [tailobj]. apply (H0 t eq_refl Wt); auto. }
    fold (tailobj tl). destruct ps as [|p0 ps].
    + destruct tl as [t|]; [destruct (WT t eq_refl) as [_ [_ C]]; congruence|reflexivity].
    + rewrite chain_stx by discriminate. rewrite TT, (L lits) by auto. reflexivity.
  - inversion W as [| | | |? ? ? ? WF Wp WQ WT| |]; subst. split; [|intros []]. cbn [pobj]. rewrite strip_syn, strip_chain'.
    assert (TT : totail (strip (tailobj tl)) = tailobj tl).
    { destruct tl as [t|]; [|reflexivity]. destruct (WT t eq_refl) as [Wt St]. cbn [tailobj]. apply (H1 t eq_refl Wt); auto. }
    fold (tailobj tl). rewrite chain_stx by (destruct ps; discriminate). rewrite TT, !map_app. cbn [map].
    rewrite !(L lits) by auto. destruct (IHp Wp) as [-> _]. reflexivity.
  - inversion W as [| | | | |? WF|]; subst. split; [|intros []]. cbn [pobj]. rewrite strip_syn. cbn [strip to_stx]. rewrite (L lits) by auto. reflexivity.
  - inversion W as [| | | | | |? ? WF Wp]; subst. split; [|intros []]. cbn [pobj]. rewrite strip_syn. cbn [strip to_stx]. rewrite !map_app. cbn [map].
    rewrite (L lits) by auto. destruct (IHp Wp) as [-> _]. reflexivity.
Qed.
Definition elems (es : list tmpl) : list obj := flat_map (fun e => match e with TRep t => [tobj t; DOTS] | _ => [tobj e] end) es.
Lemma tmpl_reads : forall t, (tok t \/ exists u, t = TRep u /\ tok u) -> normal t ->
  to_stx (strip (tobj t)) = tobj t /\ (is_list t = false -> t <> TConst ONull -> totail (strip (tobj t)) = tobj t \/ exists u, t = TRep u).
Proof.
  assert (L : forall es, Forall (fun t => (tok t \/ exists u, t = TRep u /\ tok u) -> normal t ->
      to_stx (strip (tobj t)) = tobj t /\ (is_list t = false -> t <> TConst ONull -> totail (strip (tobj t)) = tobj t \/ exists u, t = TRep u)) es ->
      Forall tel es -> Forall normal es -> map to_stx (map strip (elems es)) = elems es).
  { intros es H K N. induction H as [|t es Ht Hes IH]; cbn [elems flat_map map]; auto. inversion K as [|? ? Kt Kes]; subst. inversion N as [|? ? Nt Nes]; subst.
    fold (elems es). rewrite !map_app, IH by auto. f_equal.
    destruct Ht as [E _]; auto. { inversion Kt; subst; eauto. }
    destruct t; cbn [map]; rewrite ?E; try reflexivity. cbn [tobj] in E. rewrite E. reflexivity. }
  intros t. induction t using tmpl_ind_strong; intros K N.
  - destruct K as [K|[u [E _]]]; [|discriminate]. inversion K as [? LF| | |]; subst. inversion N as [? SD| | | |]; subst.
    split; cbn [tobj]; rewrite strip_syn, SD; destruct d; cbn in LF; try discriminate; try reflexivity; try congruence; left; reflexivity.
  - split; [reflexivity|left; reflexivity].
  - destruct K as [K|[u [E Ku]]]; [inversion K|]. injection E as <-. inversion N; subst. split; [|eauto]. cbn [tobj]. apply IHt; auto.
  - destruct K as [K|[u [E _]]]; [|discriminate]. inversion K as [| |? ? NE KE KT|]; subst. inversion N as [| | |? ? NF NT|]; subst.
    split; [|discriminate]. cbn [tobj]. fold (elems es). rewrite strip_syn, strip_chain'.
    assert (NEE : elems es <> []) by (destruct es as [|e0 es]; [congruence|]; destruct e0; discriminate).
    rewrite chain_stx by (destruct (elems es); [congruence|discriminate]). rewrite L by auto. f_equal. f_equal.
    destruct tl as [t|]; [|reflexivity]. destruct (KT t eq_refl) as [Kt [IL _]]. destruct (NT t eq_refl) as [Nt NN].
    destruct (H0 t eq_refl (or_introl Kt) Nt) as [_ G]. destruct (G IL NN) as [?|[u ->]]; auto. inversion Kt.
  - destruct K as [K|[u [E _]]]; [|discriminate]. inversion K as [| | |? KE]; subst. inversion N as [| | | |? NF]; subst.
    cbn [tobj]. fold (elems es). rewrite strip_syn. cbn [strip]. split; [|intros _ _; left]; cbn [to_stx totail]; rewrite L by auto; reflexivity.
Qed.
