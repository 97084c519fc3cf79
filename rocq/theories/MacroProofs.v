(** Lemmas for macros written with patterns and templates: what patterns made of
    lists, ellipses and variables match, and what templates made of them give. *)
From Coq Require Import ZArith NArith Bool Ascii String List Arith Lia.
From Verif Require Import Base Check Expand LibRead LibReadProofs StxCase StxCaseProofs StxCaseThm Template TemplateProofs TemplateThm SynRules SynRulesProofs SynRulesThm.
Import ListNotations.
Local Open Scope list_scope.
Local Open Scope nat_scope.

(** * Patterns *)
(** [e] is a proper list of the elements [es]. *)
Definition slist (e : obj) (es : list obj) : Prop := exists r, spine e es r /\ empty r.
Lemma empty_end : forall r, empty r -> forall x q, ~ spine r [x] q.
Proof. intros r H x q SP. inversion H; subst; inversion SP. Qed.
Lemma empty_pair : forall r, empty r -> stx_pair r = None.
Proof. intros r H. inversion H; reflexivity. Qed.
Lemma slist_stx : forall l, slist (to_stx (of_list l)) (map to_stx l).
Proof.
  intros l. rewrite stx_list_text. destruct l as [|x l].
  - exists (OSyntax ONull OFalse). split; constructor.
  - exists ONull. split; [|constructor]. cbn [map of_list]. constructor. apply spine_list.
Qed.
Lemma slist_cons : forall x l, slist (OSyntax (OPair (to_stx x) (totail (of_list l))) OFalse) (to_stx x :: map to_stx l).
Proof. intros x l. rewrite totail_list. exists ONull. split; constructor. apply spine_list. Qed.
Lemma slist_unique : forall e es es', slist e es -> slist e es' -> es = es'.
Proof. intros e es es' [r [S1 E1]] [r' [S2 E2]]. eapply spine_unique; eauto using empty_pair. Qed.
Lemma slist_strip : forall e es, slist e es -> strip e = of_list (map strip es).
Proof. intros e es [r [SP E]]. rewrite (spine_strip _ _ _ SP), of_list_chain. inversion E; reflexivity. Qed.

Lemma m_list : forall ps e es bs, slist e es -> pml ps es bs -> pm (PList ps None) e bs.
Proof. intros ps e es bs [r [SP E]] H. rewrite <- (app_nil_r bs). apply (PmList _ _ _ es r); auto. constructor; auto. Qed.
Lemma i_list : forall ps e bs, pm (PList ps None) e bs -> exists es, slist e es /\ pml ps es bs.
Proof.
  intros ps e bs H. inversion H as [| | |? ? ? es rest b bt SP PL PT| | |]; subst. inversion PT as [? EM|]; subst.
  rewrite app_nil_r. exists es. split; auto. exists rest. auto.
Qed.
Lemma m_ell : forall ps p qs e es1 mids es2 b1 rows b2, slist e (es1 ++ mids ++ es2) -> pml ps es1 b1 -> pmr p mids rows -> pml qs es2 b2 ->
  pm (PEll ps p qs None) e (b1 ++ columns (length (vars 0 p)) rows ++ b2).
Proof.
  intros ps p qs e es1 mids es2 b1 rows b2 [r [SP E]] H1 H2 H3. rewrite <- (app_nil_r b2).
  apply (PmEll ps p qs None e es1 mids es2 r b1 rows b2 []); auto using empty_end. constructor; auto.
Qed.
Lemma i_ell : forall ps p qs e bs, pm (PEll ps p qs None) e bs -> exists es1 mids es2 b1 rows b2,
  slist e (es1 ++ mids ++ es2) /\ pml ps es1 b1 /\ pmr p mids rows /\ pml qs es2 b2 /\ bs = b1 ++ columns (length (vars 0 p)) rows ++ b2.
Proof.
  intros ps p qs e bs H. inversion H as [| | | |? ? ? ? ? es1 mids es2 rest b1 rows b2 bt SP NP PL PR PQ PT| |]; subst.
  inversion PT as [? EM|]; subst. exists es1, mids, es2, b1, rows, b2. rewrite app_nil_r. split; [exists rest; auto|]. auto.
Qed.
Lemma i_nil : forall es bs, pml [] es bs -> es = [] /\ bs = [].
Proof. intros es bs H. inversion H; auto. Qed.
Lemma i_cons : forall p ps es bs, pml (p :: ps) es bs -> exists e es' b bs', es = e :: es' /\ bs = b ++ bs' /\ pm p e b /\ pml ps es' bs'.
Proof. intros p ps es bs H. inversion H; subst. eauto 8. Qed.
Lemma i_var : forall x e b, pm (PVar x) e b -> b = [e].
Proof. intros x e b H. inversion H; auto. Qed.
Lemma i_wild : forall e b, pm PWild e b -> b = [].
Proof. intros e b H. inversion H; auto. Qed.
Lemma i_lit : forall d e b, pm (PLit d) e b -> b = [] /\ exists l, e = OSyntax d l.
Proof. intros d e b H. inversion H; subst; eauto. Qed.
Lemma m_cons : forall p ps e es b bs, pm p e b -> pml ps es bs -> pml (p :: ps) (e :: es) (b ++ bs).
Proof. intros. constructor; auto. Qed.
Lemma m_rows : forall p (A : Type) (f : A -> obj) (g : A -> list obj) l, (forall x, In x l -> pm p (f x) (g x)) -> pmr p (map f l) (map g l).
Proof. induction l as [|x l IH]; intros H; cbn [map]; constructor; [apply H; left; auto|apply IH; intros; apply H; right; auto]. Qed.
Lemma i_rows : forall p es rows, pmr p es rows -> Forall2 (pm p) es rows.
Proof.
  intros p es. induction es as [|e es IH]; intros rows H; inversion H; subst; constructor; auto.
Qed.
Lemma columns_var : forall es, columns 1 (map (fun e => [e]) es) = [of_list es].
Proof. intros. unfold columns. cbn [seq map]. rewrite map_map. cbn [nth]. rewrite map_id. reflexivity. Qed.
Lemma m_seq : forall x e es, slist e es -> pm (PEll [] (PVar x) [] None) e [of_list es].
Proof.
  intros x e es H. rewrite <- columns_var, <- (app_nil_r (columns _ _)).
  apply (m_ell [] (PVar x) [] e [] es [] [] (map (fun e => [e]) es) []); try constructor; cbn [app]; [rewrite app_nil_r; auto|].
  rewrite <- (map_id es) at 1. apply m_rows. intros; constructor.
Qed.
Lemma i_seq : forall x e b, pm (PEll [] (PVar x) [] None) e b -> exists es, slist e es /\ b = [of_list es].
Proof.
  intros x e b H. apply i_ell in H as (es1 & mids & es2 & b1 & rows & b2 & SL & H1 & H2 & H3 & ->).
  apply i_nil in H1 as [-> ->]. apply i_nil in H3 as [-> ->]. cbn [app] in *. rewrite app_nil_r in *. exists mids. split; auto.
  apply pmr_var in H2. subst. apply columns_var.
Qed.
(** a sequence after some elements *)
Lemma m_rest : forall ps x e es1 es b1, slist e (es1 ++ es) -> pml ps es1 b1 -> pm (PEll ps (PVar x) [] None) e (b1 ++ [of_list es]).
Proof.
  intros ps x e es1 es b1 H H1. rewrite <- columns_var, <- (app_nil_r (columns _ _)).
  apply (m_ell ps (PVar x) [] e es1 es [] b1 (map (fun e => [e]) es) []); auto; [rewrite app_nil_r; auto| |constructor].
  rewrite <- (map_id es) at 1. apply m_rows. intros; constructor.
Qed.
Lemma i_rest : forall ps x e b, pm (PEll ps (PVar x) [] None) e b -> exists es1 es b1, slist e (es1 ++ es) /\ pml ps es1 b1 /\ b = b1 ++ [of_list es].
Proof.
  intros ps x e b H. apply i_ell in H as (es1 & mids & es2 & b1 & rows & b2 & SL & H1 & H2 & H3 & ->).
  apply i_nil in H3 as [-> ->]. rewrite !app_nil_r in *. exists es1, mids, b1. split; auto. split; auto.
  apply pmr_var in H2. subst. f_equal. apply columns_var.
Qed.

(** * Templates *)
Lemma insts_list : forall rho es, insts rho (TList es None) = match oconcat (map (insts rho) es) with Some ds => Some [of_list ds] | None => None end.
Proof. intros. cbn [insts]. destruct (oconcat _); auto. Qed.
Lemma insts_free : forall rho x, rho x = None -> insts rho (TId x) = Some [OSym x].
Proof. intros rho x E. cbn [insts]. rewrite E. auto. Qed.
Lemma insts_var : forall rho x v, rho x = Some (0, v) -> insts rho (TId x) = Some [strip v].
Proof. intros rho x v E. cbn [insts]. rewrite E. auto. Qed.
Lemma insts_const : forall rho d, insts rho (TConst d) = Some [d].
Proof. reflexivity. Qed.
(** the variables in a repeated subtemplate go through lists of n elements *)
Definition goes (rho : env) (n : nat) (xs : list (list byte)) : Prop :=
  Forall (fun x => match rho x with Some (S _, v) => exists l, v = of_list l /\ length l = n | _ => True end) xs /\
  Exists (fun x => exists k v, rho x = Some (S k, v)) xs.
Lemma repetitions_goes : forall rho n xs, goes rho n xs -> repetitions rho xs = Some n.
Proof.
  intros rho n xs [HF HE].
  assert (RF : Forall (fun v => exists l, v = of_list l /\ length l = n) (runs rho xs)).
  { clear HE. unfold runs. induction HF; cbn; auto. apply Forall_app. split; auto. destruct (rho x) as [[[|k] v]|]; auto. }
  assert (RE : runs rho xs <> []).
  { clear - HE. unfold runs. induction HE as [x xs [k [v E]]|x xs H IH]; cbn; [rewrite E; discriminate|].
    intros C. apply app_eq_nil in C. tauto. }
  unfold repetitions. destruct (runs rho xs) as [|v vs]; [congruence|]. inversion RF as [|? ? [l [-> L]] RV]; subst.
  rewrite to_list_of_list.
  replace (forallb _ vs) with true; auto. symmetry. apply forallb_forall. intros w HI. rewrite Forall_forall in RV.
  destruct (RV w HI) as [m [-> ML]]. rewrite to_list_of_list. apply Nat.eqb_eq. auto.
Qed.
Lemma at_list : forall i rho x k l d, rho x = Some (S k, of_list l) -> i < length l -> at_ i rho x = Some (k, nth i l d).
Proof. intros i rho x k l d E L. unfold at_. rewrite E, to_list_of_list, (nth_error_nth' _ i d L). reflexivity. Qed.
Lemma at_zero : forall i rho x v, rho x = Some (0, v) -> at_ i rho x = Some (0, v).
Proof. intros i rho x v E. unfold at_. rewrite E. reflexivity. Qed.
Lemma at_free : forall i rho x, rho x = None -> at_ i rho x = None.
Proof. intros i rho x E. unfold at_. rewrite E. reflexivity. Qed.
Lemma insts_rep : forall (A : Type) (d : A) rho t (l : list A) (g : A -> obj), goes rho (length l) (ids t) ->
  (forall i, i < length l -> insts (at_ i rho) t = Some [g (nth i l d)]) -> insts rho (TRep t) = Some (map g l).
Proof.
  intros A d rho t l g G H. cbn [insts]. rewrite (repetitions_goes _ _ _ G).
  rewrite (oconcat_ext _ (fun i => Some [g (nth i l d)])) by (intros i HI; apply in_seq in HI; apply H; lia).
  rewrite (oconcat_ones (fun i => g (nth i l d))), (map_seq_nth g). reflexivity.
Qed.
(** a variable followed by an ellipsis *)
Lemma insts_seq : forall rho x l, rho x = Some (1, of_list l) -> insts rho (TRep (TId x)) = Some (map strip l).
Proof.
  intros rho x l E. apply (insts_rep _ ONull).
  - split; cbn [ids]; constructor; auto; rewrite E; eauto using map_length.
  - intros i L. apply insts_var. apply (at_list i rho x 0 l); auto.
Qed.

(** * Uses of a macro *)
(** The clause that a use selects, and what it becomes. *)
Lemma use_some : forall lits rs, Forall (rule_ok lits) rs -> exists N, forall f, N <= f -> forall k a i r bs x,
  plain (OPair k a) = true -> first_rule rs (OPair k a) i r bs -> inst (env_of (rule_pat r) bs) (body r) = Some x ->
  exists v, expand_use f (macro_of lits rs) (OPair k a) = MOk v /\ strip v = x.
Proof.
  intros lits rs OK. destruct (C67_use_partial lits rs OK) as [N U]. exists N. intros f Hf k a i r bs x PD [F1 [F2 F3]] I0.
  assert (SAME : forall i' r' bs', first_rule rs (OPair k a) i' r' bs' -> i' = i /\ r' = r /\ bs' = bs).
  { intros i' r' bs' [G1 [G2 G3]]. assert (i' = i).
    { destruct (Nat.lt_trichotomy i i') as [L|[L|L]]; auto; exfalso; [apply (G3 i r L F1); eauto|apply (F3 i' r' L G1); eauto]. }
    subst. rewrite F1 in G1. injection G1 as <-. split; auto. split; auto. eapply C58_unique; eauto. }
  destruct (U f Hf k a PD) as [[i' [r' [bs' [v [FR [E I1]]]]]]|[[E NM]|[i' [r' [bs' [FR [E I1]]]]]]].
  - destruct (SAME _ _ _ FR) as [-> [-> ->]]. exists v. split; auto. congruence.
  - exfalso. apply (NM r bs); auto. eapply nth_error_In; eauto.
  - destruct (SAME _ _ _ FR) as [-> [-> ->]]. congruence.
Qed.
Lemma use_none : forall lits rs, Forall (rule_ok lits) rs -> exists N, forall f, N <= f -> forall k a,
  plain (OPair k a) = true -> (forall r bs, In r rs -> ~ matches r (OPair k a) bs) -> expand_use f (macro_of lits rs) (OPair k a) = MNo.
Proof.
  intros lits rs OK. destruct (C67_use_partial lits rs OK) as [N U]. exists N. intros f Hf k a PD H.
  destruct (U f Hf k a PD) as [[i' [r' [bs' [v [[F1 [F2 _]] _]]]]]|[[E NM]|[i' [r' [bs' [[F1 [F2 _]] _]]]]]]; auto;
    exfalso; apply (H r' bs'); auto; eapply nth_error_In; eauto.
Qed.
Lemma datum_plain : forall d, strip d = d -> plain d = true.
Proof. intros d H. rewrite <- H. apply plain_strip. Qed.
