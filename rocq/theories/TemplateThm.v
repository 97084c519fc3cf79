(** C59: templates. *)
From Coq Require Import ZArith NArith Bool Ascii String List Arith Lia.
From Verif Require Import Base Check Expand LibRead LibReadProofs StxCase StxCaseProofs StxCaseThm Template TemplateProofs.
Import ListNotations.
Local Open Scope list_scope.

(** A template that is not refused when it is expanded gives its instance: the text of
    the template with the variables replaced; it raises an error when it has none.
    Templates with enough ellipses, each with a variable to go through, are not
    refused.  Missing from the full claim: a tail after an ellipsis, see
    [C59_tail_refuted]. *)
Theorem C59_template_partial : forall rho t, tok t -> exists N, forall f, N <= f ->
  match template rho f (tobj t) with
  | TOk v => inst rho t = Some (strip v)
  | TErr => inst rho t = None
  | TBad => ~ (enough rho 0 t /\ driven rho 0 t)
  | TFuel => False
  end.
Proof. intros rho t K. exists (tsize t). intros f Hf. exact (proj1 (template_spec rho t f K Hf)). Qed.

Theorem C59_instance : forall rho t, tok t -> enough rho 0 t -> driven rho 0 t -> exists N, forall f d, N <= f ->
  ((exists v, template rho f (tobj t) = TOk v /\ strip v = d) <-> inst rho t = Some d).
Proof.
  intros rho t K E D. exists (tsize t). intros f d Hf. pose proof (proj1 (template_spec rho t f K Hf)) as H. split.
  - intros [v [T <-]]. rewrite T in H. auto.
  - intros I0. destruct (template rho f (tobj t)) as [v| | |]; try (rewrite I0 in H; discriminate); try tauto.
    exists v. split; auto. congruence.
Qed.

(** Too few ellipses, and ellipses after something without variables, are refused. *)
Theorem C59_refused : forall rho t, tok t -> ~ (enough rho 0 t /\ filled rho t) -> exists N, forall f, N <= f ->
  template rho f (tobj t) = TBad.
Proof.
  intros rho t K H. exists (tsize t). intros f Hf. pose proof (proj2 (template_spec rho t f K Hf)) as G.
  destruct (template rho f (tobj t)); auto; exfalso; apply H, G; discriminate.
Qed.

(** The text of a pattern as a template gives back what the pattern matched. *)
Theorem C59_roundtrip : forall lits p, wf lits p -> keeps p -> NoDup (map fst (vars 0 p)) ->
  exists N, forall e bs f, N <= f -> gmatch lits f (pobj p) e = MOk bs ->
  exists v, template (env_of p bs) f (pobj p) = TOk v /\ strip v = strip e.
Proof.
  intros lits p W K ND. destruct (C58_match_sound lits p W) as [N M]. destruct (as_tmpl_tok lits p W K) as [TK _].
  exists (N + tsize (as_tmpl p)). intros e bs f Hf HM. assert (P : pm p e bs) by (apply (M e f bs); auto; lia).
  rewrite <- (as_tmpl_text p lits W K). destruct (wf_names lits p W) as [VN LN].
  assert (LEN : length (vars 0 p) = length bs) by (apply (proj1 pm_shaped) in P; eapply Forall2_len; eauto).
  assert (FR : frees (env_of p bs) (lsyms p)).
  { apply env_frees. intros x HI HV. apply in_map_iff in HV. destruct HV as [v [EV HV]]. destruct (VN v HV) as [y [E1 E2]].
    rewrite E1 in EV. injection EV as ->. apply E2, LN. auto. }
  assert (B : Forall2 (binds (env_of p bs)) (vars 0 p) bs).
  { apply env_binds; auto. intros v HI. destruct (VN v HI) as [x [E _]]. eauto. }
  pose proof (proj1 keeps_inst p e bs P K (env_of p bs) FR B) as I0.
  destruct (as_tmpl_accepted (env_of p bs) p K 0 FR) as [AE AD].
  { intros v HI. destruct (Forall2_in_l _ _ _ B _ HI) as [b [_ [x [E1 E2]]]]. eauto. }
  pose proof (proj1 (template_spec (env_of p bs) (as_tmpl p) f TK ltac:(lia))) as H.
  assert (I1 : inst (env_of p bs) (as_tmpl p) = Some (strip e)) by (unfold inst; rewrite I0; auto).
  destruct (template (env_of p bs) f (tobj (as_tmpl p))) as [v| | |]; try tauto; rewrite I1 in H.
  - exists v. split; auto. congruence.
  - discriminate.
Qed.

(** ** What does not hold *)
Definition one (x : string) (d : nat) (v : obj) : env :=
  fun y => if list_eq_dec ascii_dec y (s2b x) then Some (d, v) else None.

(** (x <ellipsis> . 5): the instance is the list ended by 5, the evaluation raises an
    error. *)
Theorem C59_tail_refuted : exists rho t d, inst rho t = Some d /\ enough rho 0 t /\ driven rho 0 t /\
  forall f, 5 <= f -> template rho f (tobj t) = TErr.
Proof.
  exists (one "x" 1 (of_list [OFix 1; OFix 2])), (TList [TRep (TId (s2b "x"))] (Some (TConst (OFix 5)))),
    (OPair (OFix 1) (OPair (OFix 2) (OFix 5))).
  split; [reflexivity|]. split; [cbn; auto|]. split.
  - cbn. repeat split; auto. exists (s2b "x"), 1, (of_list [OFix 1; OFix 2]). cbn. auto.
  - intros f Hf. do 5 (destruct f as [|f]; [lia|]). reflexivity.
Qed.
(** (x <ellipsis>) for a variable that is under no ellipsis in the pattern is not
    refused; the expression it makes always fails. *)
Theorem C59_extra_ellipsis_refuted : exists rho t, tok t /\ ~ driven rho 0 t /\
  forall f, 5 <= f -> template rho f (tobj t) <> TBad /\ template rho f (tobj t) = TErr.
Proof.
  exists (one "x" 0 (OFix 1)), (TList [TRep (TId (s2b "x"))] None). split; [|split].
  - constructor; [discriminate| |discriminate]. constructor; [|constructor]. apply TelRep. constructor. discriminate.
  - intros H. cbn [driven fold_right] in H. destruct H as [[[x [p [v [A [B C]]]]] _] _]. cbn [ids In] in A. destruct A as [<-|[]].
    cbn in B. injection B as <- <-. lia.
  - intros f Hf. do 5 (destruct f as [|f]; [lia|]). split; [discriminate|reflexivity].
Qed.
(** A second ellipsis is not an ellipsis: it becomes the symbol. *)
Theorem C59_second_ellipsis_refuted : exists rho, forall f, 5 <= f -> exists v,
  template rho f (OSyntax (of_list [OSyntax (OSym (s2b "x")) OFalse; DOTS; DOTS]) OFalse) = TOk v /\
  strip v = of_list [OFix 1; OFix 2; OSym (s2b "...")].
Proof.
  exists (one "x" 1 (of_list [OFix 1; OFix 2])). intros f Hf. do 5 (destruct f as [|f]; [lia|]). eexists. split; reflexivity.
Qed.

(** ** Concrete cases *)
(** ((lambda (x <ellipsis>) body) e <ellipsis>) *)
Definition let_tmpl : tmpl :=
  TList [TList [TId (s2b "lambda"); TList [TRep (TId (s2b "x"))] None; TId (s2b "body")] None; TRep (TId (s2b "e"))] None.
Definition let_env : env := fun y =>
  if list_eq_dec ascii_dec y (s2b "x") then Some (1, of_list [S1; S2])
  else if list_eq_dec ascii_dec y (s2b "e") then Some (1, of_list [to_stx (OFix 1); to_stx (OFix 2)])
  else if list_eq_dec ascii_dec y (s2b "body") then Some (0, to_stx (of_list [S1; S2]))
  else None.
Example C59_case : tok let_tmpl /\ enough let_env 0 let_tmpl /\ driven let_env 0 let_tmpl /\
  inst let_env let_tmpl = Some (of_list [of_list [OSym (s2b "lambda"); of_list [S1; S2]; of_list [S1; S2]]; OFix 1; OFix 2]) /\
  exists v, template let_env 20 (tobj let_tmpl) = TOk v /\
    strip v = of_list [of_list [OSym (s2b "lambda"); of_list [S1; S2]; of_list [S1; S2]]; OFix 1; OFix 2].
Proof.
  assert (I0 : forall x, s2b x <> s2b "..." -> tok (TId (s2b x))) by (intros; constructor; auto).
  repeat split.
  - unfold let_tmpl. constructor; [discriminate| |discriminate]. constructor; [|constructor; [|constructor]].
    + apply TelOne. constructor; [discriminate| |discriminate]. constructor; [|constructor; [|constructor; [|constructor]]].
      * apply TelOne, I0. discriminate.
      * apply TelOne. constructor; [discriminate| |discriminate]. constructor; [|constructor]. apply TelRep, I0. discriminate.
      * apply TelOne, I0. discriminate.
    + apply TelRep, I0. discriminate.
  - cbn. lia.
  - cbn. lia.
  - cbn. lia.
  - exists (s2b "x"), 1, (of_list [S1; S2]). cbn. auto.
  - exists (s2b "e"), 1, (of_list [to_stx (OFix 1); to_stx (OFix 2)]). cbn. auto.
  - eexists. split; reflexivity.
Qed.
(** nested ellipses, a constant repeated with them and a vector *)
Definition nest_tmpl : tmpl :=
  TVec [TRep (TList [TId (s2b "k"); TRep (TList [TId (s2b "a"); TId (s2b "b")] None)] None)].
Definition nest_env : env := fun y =>
  if list_eq_dec ascii_dec y (s2b "a") then Some (1, of_list [OFix 1; OFix 2])
  else if list_eq_dec ascii_dec y (s2b "b") then Some (2, of_list [of_list [OFix 3; OFix 4]; ONull])
  else None.
Example C59_nested : exists v, template nest_env 20 (tobj nest_tmpl) = TOk v /\
  strip v = OVec [of_list [OSym (s2b "k"); of_list [OFix 1; OFix 3]; of_list [OFix 1; OFix 4]]; of_list [OSym (s2b "k")]] /\
  inst nest_env nest_tmpl = Some (strip v).
Proof. eexists. split; [reflexivity|]. split; reflexivity. Qed.
(** a pattern used as a template *)
Definition rt_pat : pat :=
  PList [PLit (OSym (s2b "let")); PEll [] (PList [PVar (s2b "x"); PVar (s2b "e")] None) [] None; PEll [PVar (s2b "a")] (PVar (s2b "b")) [PVar (s2b "c")] None] None.
Definition rt_datum : obj :=
  of_list [OSym (s2b "let"); of_list [of_list [S1; OFix 1]; of_list [S2; OFix 2]]; of_list [OFix 3; OFix 4; OFix 5; OFix 6]].
Example C59_roundtrip_case : wf [OSym (s2b "let")] rt_pat /\ keeps rt_pat /\ NoDup (map fst (vars 0 rt_pat)) /\
  exists bs v, gmatch [OSym (s2b "let")] 60 (pobj rt_pat) (to_stx rt_datum) = MOk bs /\
    template (env_of rt_pat bs) 60 (pobj rt_pat) = TOk v /\ strip v = rt_datum.
Proof.
  split; [|split; [|split]].
  - unfold rt_pat. repeat (constructor; try discriminate); cbn; intuition discriminate.
  - unfold rt_pat. repeat (constructor; try discriminate).
  - cbn. repeat constructor; cbn; intuition discriminate.
  - eexists. eexists. split; [reflexivity|]. split; reflexivity.
Qed.

Print Assumptions C59_template_partial.
Print Assumptions C59_instance.
Print Assumptions C59_refused.
Print Assumptions C59_roundtrip.
Print Assumptions C59_tail_refuted.
Print Assumptions C59_extra_ellipsis_refuted.
Print Assumptions C59_second_ellipsis_refuted.
