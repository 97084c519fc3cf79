(** The passes of the optimiser terminate. *)
From Coq Require Import ZArith NArith Bool Ascii String List Arith Lia.
From Verif Require Import Base Heap HeapM Ast Sem Opt OptRel OptSim OptProofs OptFun.
Import ListNotations.
Local Open Scope list_scope.

(** Expressions of programs: the forms introduced by the passes do not occur. *)
Fixpoint surface (e : expr) : bool :=
  match e with
  | EConst _ | EUnbound | EVar _ => true
  | EDefine _ e | ESet _ e => surface e
  | ELam _ b => forallb surface b
  | ECase cls => forallb (fun c => forallb surface (snd c)) cls
  | EBegin es | EValues es => forallb surface es
  | EIf a b c => surface a && surface b && surface c
  | EApp f es => surface f && forallb surface es
  | ELet bs b | ELetrec bs b => forallb (fun p => surface (snd p)) bs && forallb surface b
  | ECwv p c => surface p && surface c
  | EMvCall _ _ | EMvLet _ _ _ | EMvValues _ => false
  end.
(** After L0: no bindings. *)
Fixpoint flat (e : expr) : bool :=
  match e with
  | EConst _ | EUnbound | EVar _ => true
  | EDefine _ e | ESet _ e => flat e
  | ELam _ b => forallb flat b
  | ECase cls => forallb (fun c => forallb flat (snd c)) cls
  | EBegin es | EValues es => forallb flat es
  | EIf a b c => flat a && flat b && flat c
  | EApp f es => flat f && forallb flat es
  | ECwv p c => flat p && flat c
  | ELet _ _ | ELetrec _ _ | EMvCall _ _ | EMvLet _ _ _ | EMvValues _ => false
  end.
(** After L1: values and call-with-values are gone, and what is left of mv-call
    cannot be rewritten. *)
Definition stuck (e c : expr) : bool := match mvcall_expr e c with inl _ => false | inr _ => true end.
Fixpoint nf (e : expr) : bool :=
  match e with
  | EConst _ | EUnbound | EVar _ => true
  | EDefine _ e | ESet _ e => nf e
  | ELam _ b => forallb nf b
  | ECase cls => forallb (fun c => forallb nf (snd c)) cls
  | EBegin es | EMvValues es => forallb nf es
  | EIf a b c => nf a && nf b && nf c
  | EApp f es => nf f && forallb nf es
  | EMvCall e c => nf e && nf c && stuck e c
  | EMvLet e _ b => nf e && nf b
  | ELet _ _ | ELetrec _ _ | EValues _ | ECwv _ _ => false
  end.

(** ** More fuel does not change the result *)
Lemma seq0_mono (F G : nat -> expr -> option (expr * nat)) es : (forall n e r, F n e = Some r -> G n e = Some r) ->
  forall n r, seq0 F n es = Some r -> seq0 G n es = Some r.
Proof.
  intros H. induction es as [|e es IH]; simpl; intros n r E; auto. destruct (F n e) as [[e1 n1]|] eqn:Fe; [|discriminate].
  rewrite (H _ _ _ Fe). destruct (seq0 F n1 es) as [[r1 n2]|] eqn:Fs; [|discriminate]. rewrite (IH _ _ Fs). auto.
Qed.
Lemma clauses0_mono (F G : nat -> expr -> option (expr * nat)) cls : (forall n e r, F n e = Some r -> G n e = Some r) ->
  forall n r, clauses0 F n cls = Some r -> clauses0 G n cls = Some r.
Proof.
  intros H. induction cls as [|[fm b] cls IH]; simpl; intros n r E; auto. destruct (seq0 F n b) as [[e1 n1]|] eqn:Fe; [|discriminate].
  rewrite (seq0_mono _ _ _ H _ _ Fe). destruct (clauses0 F n1 cls) as [[r1 n2]|] eqn:Fs; [|discriminate]. rewrite (IH _ _ Fs). auto.
Qed.
Lemma seq1_mono (F G : expr -> option expr) es : (forall e r, F e = Some r -> G e = Some r) -> forall r, seq1 F es = Some r -> seq1 G es = Some r.
Proof.
  intros H. induction es as [|e es IH]; simpl; intros r E; auto. destruct (F e) as [e1|] eqn:Fe; [|discriminate].
  rewrite (H _ _ Fe). destruct (seq1 F es) as [r1|] eqn:Fs; [|discriminate]. rewrite (IH _ eq_refl). auto.
Qed.
Lemma clauses1_mono (F G : expr -> option expr) cls : (forall e r, F e = Some r -> G e = Some r) -> forall r, clauses1 F cls = Some r -> clauses1 G cls = Some r.
Proof.
  intros H. induction cls as [|[fm b] cls IH]; simpl; intros r E; auto. destruct (seq1 F b) as [e1|] eqn:Fe; [|discriminate].
  rewrite (seq1_mono _ _ _ H _ Fe). destruct (clauses1 F cls) as [r1|] eqn:Fs; [|discriminate]. rewrite (IH _ eq_refl). auto.
Qed.

Ltac mono IH SQ CQ := repeat match goal with
  | H : match ?x with _ => _ end = Some _ |- _ =>
      let Q := fresh "Q" in destruct x eqn:Q; try discriminate; try rewrite (IH _ _ _ Q); try rewrite (SQ _ _ _ Q); try rewrite (CQ _ _ _ Q)
  end; auto.
Lemma L0_more f : forall n e r, opt_L0 f n e = Some r -> opt_L0 (S f) n e = Some r.
Proof.
  induction f as [|f IH]; intros n e r E; [discriminate|].
  assert (SQ : forall es n r, seq0 (opt_L0 f) n es = Some r -> seq0 (opt_L0 (S f)) n es = Some r) by (intros es; apply seq0_mono; auto).
  assert (CQ : forall es n r, clauses0 (opt_L0 f) n es = Some r -> clauses0 (opt_L0 (S f)) n es = Some r) by (intros es; apply clauses0_mono; auto).
  remember (S f) as g. cbn [opt_L0]. rewrite Heqg in E. cbn [opt_L0] in E. 
  destruct e; auto; try (mono IH SQ CQ; fail).
Qed.
Lemma L1_more f : forall e r, opt_L1 f e = Some r -> opt_L1 (S f) e = Some r.
Proof.
  induction f as [|f IH]; intros e r E; [discriminate|].
  assert (SQ : forall es r, seq1 (opt_L1 f) es = Some r -> seq1 (opt_L1 (S f)) es = Some r) by (intros es; apply seq1_mono; auto).
  assert (CQ : forall es r, clauses1 (opt_L1 f) es = Some r -> clauses1 (opt_L1 (S f)) es = Some r) by (intros es; apply clauses1_mono; auto).
  remember (S f) as g. cbn [opt_L1]. rewrite Heqg in E. cbn [opt_L1] in E.
  assert (X : forall n : nat, True) by auto.
  destruct e; auto;
    repeat match goal with
    | H : match ?x with _ => _ end = Some _ |- _ =>
        let Q := fresh "Q" in destruct x eqn:Q; try discriminate; try rewrite (IH _ _ Q); try rewrite (SQ _ _ Q); try rewrite (CQ _ _ Q)
    end; auto.
Qed.
Lemma L2_more f : forall e r, opt_L2 f e = Some r -> opt_L2 (S f) e = Some r.
Proof.
  induction f as [|f IH]; intros e r E; [discriminate|].
  assert (SQ : forall es r, seq1 (opt_L2 f) es = Some r -> seq1 (opt_L2 (S f)) es = Some r) by (intros es; apply seq1_mono; auto).
  assert (CQ : forall es r, clauses1 (opt_L2 f) es = Some r -> clauses1 (opt_L2 (S f)) es = Some r) by (intros es; apply clauses1_mono; auto).
  remember (S f) as g. cbn [opt_L2]. rewrite Heqg in E. cbn [opt_L2] in E.
  destruct e; auto;
    repeat match goal with
    | H : match ?x with _ => _ end = Some _ |- _ =>
        let Q := fresh "Q" in destruct x eqn:Q; try discriminate; try rewrite (IH _ _ Q); try rewrite (SQ _ _ Q); try rewrite (CQ _ _ Q)
    end; auto.
Qed.

Lemma L0_le f g n e r : opt_L0 f n e = Some r -> f <= g -> opt_L0 g n e = Some r.
Proof. intros E. induction 1; auto. apply L0_more; auto. Qed.
Lemma L1_le f g e r : opt_L1 f e = Some r -> f <= g -> opt_L1 g e = Some r.
Proof. intros E. induction 1; auto. apply L1_more; auto. Qed.
Lemma L2_le f g e r : opt_L2 f e = Some r -> f <= g -> opt_L2 g e = Some r.
Proof. intros E. induction 1; auto. apply L2_more; auto. Qed.
Lemma L0s_le f g n es r : seq0 (opt_L0 f) n es = Some r -> f <= g -> seq0 (opt_L0 g) n es = Some r.
Proof. intros E L. revert E. apply seq0_mono. intros. eapply L0_le; eauto. Qed.
Lemma L0c_le f g n cls r : clauses0 (opt_L0 f) n cls = Some r -> f <= g -> clauses0 (opt_L0 g) n cls = Some r.
Proof. intros E L. revert E. apply clauses0_mono. intros. eapply L0_le; eauto. Qed.
Lemma L1s_le f g es r : seq1 (opt_L1 f) es = Some r -> f <= g -> seq1 (opt_L1 g) es = Some r.
Proof. intros E L. revert E. apply seq1_mono. intros. eapply L1_le; eauto. Qed.
Lemma L1c_le f g cls r : clauses1 (opt_L1 f) cls = Some r -> f <= g -> clauses1 (opt_L1 g) cls = Some r.
Proof. intros E L. revert E. apply clauses1_mono. intros. eapply L1_le; eauto. Qed.
Lemma L2s_le f g es r : seq1 (opt_L2 f) es = Some r -> f <= g -> seq1 (opt_L2 g) es = Some r.
Proof. intros E L. revert E. apply seq1_mono. intros. eapply L2_le; eauto. Qed.
Lemma L2c_le f g cls r : clauses1 (opt_L2 f) cls = Some r -> f <= g -> clauses1 (opt_L2 g) cls = Some r.
Proof. intros E L. revert E. apply clauses1_mono. intros. eapply L2_le; eauto. Qed.

(** ** L0 *)
Definition T0 (e : expr) : Prop := forall n, exists f e' n', opt_L0 f n e = Some (e', n') /\ flat e' = true.
Definition T0s (es : list expr) : Prop := forall n, exists f es' n', seq0 (opt_L0 f) n es = Some (es', n') /\ forallb flat es' = true /\ List.length es' = List.length es.
Lemma T0_list es : Forall T0 es -> T0s es.
Proof.
  induction 1 as [|e es H _ IH]; intros n; [exists 0, [], n; auto|].
  destruct (H n) as (f1 & e1 & n1 & E1 & F1). destruct (IH n1) as (f2 & es2 & n2 & E2 & F2 & L2).
  exists (f1 + f2), (e1 :: es2), n2. simpl. rewrite (L0_le _ (f1 + f2) _ _ _ E1 ltac:(lia)), (L0s_le _ (f1 + f2) _ _ _ E2 ltac:(lia)), F1. auto.
Qed.
Lemma T0_clauses cls : Forall (fun c : clause => T0s (snd c)) cls ->
  forall n, exists f cls' n', clauses0 (opt_L0 f) n cls = Some (cls', n') /\ forallb (fun c : clause => forallb flat (snd c)) cls' = true.
Proof.
  induction 1 as [|[fm b] cls H _ IH]; intros n; [exists 0, [], n; auto|].
  destruct (H n) as (f1 & e1 & n1 & E1 & F1 & _). destruct (IH n1) as (f2 & es2 & n2 & E2 & F2).
  exists (f1 + f2), ((fm, e1) :: es2), n2. simpl in *. rewrite (L0s_le _ (f1 + f2) _ _ _ E1 ltac:(lia)), (L0c_le _ (f1 + f2) _ _ _ E2 ltac:(lia)), F1. auto.
Qed.
Lemma T0_leaf e : match e with EConst _ | EUnbound | EVar _ => True | _ => False end -> T0 e.
Proof. intros H n. exists 1, e, n. destruct e; try tauto; auto. Qed.
Lemma T0_lam fm b : T0s b -> T0 (ELam fm b).
Proof. intros H n. destruct (H n) as (f & b' & n' & E & F & _). exists (S f), (ELam fm b'), n'. cbn [opt_L0]. rewrite E. auto. Qed.
Lemma T0_begin b : T0s b -> T0 (EBegin b).
Proof. intros H n. destruct (H n) as (f & b' & n' & E & F & _). exists (S f), (EBegin b'), n'. cbn [opt_L0]. rewrite E. auto. Qed.
Lemma T0_values b : T0s b -> T0 (EValues b).
Proof. intros H n. destruct (H n) as (f & b' & n' & E & F & _). exists (S f), (EValues b'), n'. cbn [opt_L0]. rewrite E. auto. Qed.
Lemma T0_define ids e : T0 e -> T0 (EDefine ids e).
Proof. intros H n. destruct (H n) as (f & b' & n' & E & F). exists (S f), (EDefine ids b'), n'. cbn [opt_L0]. rewrite E. auto. Qed.
Lemma T0_set x e : T0 e -> T0 (ESet x e).
Proof. intros H n. destruct (H n) as (f & b' & n' & E & F). exists (S f), (ESet x b'), n'. cbn [opt_L0]. rewrite E. auto. Qed.
Lemma T0_app g es : T0 g -> Forall T0 es -> T0 (EApp g es).
Proof.
  intros Hg H n. destruct (T0_list (g :: es) ltac:(auto) n) as (f & b' & n' & E & F & L). destruct b' as [|g' es']; [discriminate|].
  exists (S f), (EApp g' es'), n'. cbn [opt_L0]. rewrite E. auto.
Qed.
Lemma T0_if a b c : T0 a -> T0 b -> T0 c -> T0 (EIf a b c).
Proof.
  intros Ha Hb Hc n. destruct (T0_list [a; b; c] ltac:(auto) n) as (f & l & n' & E & F & L). destruct l as [|a' [|b' [|c' [|]]]]; try discriminate.
  exists (S f), (EIf a' b' c'), n'. cbn [opt_L0]. rewrite E. simpl in F. rewrite andb_true_r, andb_assoc in F. auto.
Qed.
Lemma T0_cwv a b : T0 a -> T0 b -> T0 (ECwv a b).
Proof.
  intros Ha Hb n. destruct (T0_list [a; b] ltac:(auto) n) as (f & l & n' & E & F & L). destruct l as [|a' [|b' [|]]]; try discriminate.
  exists (S f), (ECwv a' b'), n'. cbn [opt_L0]. rewrite E. simpl in F. rewrite andb_true_r in F. auto.
Qed.
Lemma T0_let2 bs body : Forall (fun b : list ident * expr => T0 (snd b)) bs -> Forall T0 body ->
  forall n ids tmps, T0 (fst (let_values2 n bs ids tmps body)).
Proof.
  intros H B. induction H as [|[xs e] bs He _ IH]; intros n ids tmps; simpl.
  - apply T0_app; [apply T0_lam, T0_list; auto|]. apply Forall_forall. intros x Hx. apply in_map_iff in Hx as (y & <- & _). apply T0_leaf. exact I.
  - specialize (IH (n + List.length xs) (xs ++ ids) (tmp_ids n (List.length xs) ++ tmps)).
    destruct (let_values2 _ bs _ _ body) as [inner n1]. simpl in *.
    apply T0_cwv; apply T0_lam, T0_list; auto.
Qed.
Lemma T0_let bs body : Forall (fun b : list ident * expr => T0 (snd b)) bs -> Forall T0 body -> T0 (ELet bs body).
Proof.
  intros H B n. assert (X : T0 (fst (let_expr n bs body))).
  { pose proof (T0_let2 bs body H B n [] []) as X. unfold let_expr. destruct bs as [|[xs e] [|]]; auto.
    - apply T0_begin, T0_list; auto.
    - inversion H; subst. simpl. apply T0_cwv; apply T0_lam, T0_list; auto. }
  destruct (let_expr n bs body) as [e1 n1] eqn:L. destruct (X n1) as (f & e' & n' & E & F). exists (S f), e', n'. cbn [opt_L0]. rewrite L. auto.
Qed.
Lemma T0_sets bs : Forall (fun b : list ident * expr => T0 (snd b)) bs -> forall n, Forall T0 (fst (set_exprs n bs)).
Proof.
  induction 1 as [|[xs e] bs He _ IH]; intros n; simpl; auto. specialize (IH (n + List.length xs)).
  destruct (set_exprs _ bs) as [es n1]. simpl in *. constructor; auto. unfold set_expr; simpl. apply T0_let; [auto|].
  destruct xs as [|x xs]; [constructor; auto; apply T0_values, T0_list; auto|].
  apply Forall_forall. intros y Hy. apply in_map_iff in Hy as (z & <- & _). apply T0_set, T0_leaf. exact I.
Qed.
Lemma T0_letrec bs body : Forall (fun b : list ident * expr => T0 (snd b)) bs -> Forall T0 body -> T0 (ELetrec bs body).
Proof.
  intros H B n. assert (X : T0 (fst (letrec_expr n bs body))).
  { unfold letrec_expr. destruct bs as [|b bs]; [apply T0_begin, T0_list; auto|].
    pose proof (T0_sets _ H n) as X. destruct (set_exprs n (b :: bs)) as [es n1]. apply T0_let.
    - constructor; auto. apply T0_values, T0_list. apply Forall_forall. intros y Hy. apply repeat_spec in Hy. subst. apply T0_leaf. exact I.
    - apply Forall_app; auto. }
  destruct (letrec_expr n bs body) as [e1 n1] eqn:L. destruct (X n1) as (f & e' & n' & E & F). exists (S f), e', n'. cbn [opt_L0]. rewrite L. auto.
Qed.
Lemma T0_case cls : Forall (fun c : clause => T0s (snd c)) cls -> T0 (ECase cls).
Proof.
  intros H n. pose proof (T0_clauses cls H n) as (f & cls' & n' & E & F).
  destruct cls as [|[fm b] [|c2 r]].
  - exists 1, (ECase []), n. auto.
  - inversion H; subst. destruct (T0_lam fm b ltac:(assumption) n) as (f2 & e2 & n2 & E2 & F2). exists (S f2), e2, n2. auto.
  - exists (S f), (ECase cls'), n'. split; auto. cbn [opt_L0]. rewrite E. auto.
Qed.
Lemma surf_list es : Forall (fun e => surface e = true -> T0 e) es -> forallb surface es = true -> Forall T0 es.
Proof. intros H S0. rewrite forallb_forall in S0. rewrite Forall_forall in *. auto. Qed.
Lemma surf_binds bs : Forall (fun b : list ident * expr => surface (snd b) = true -> T0 (snd b)) bs -> forallb (fun p : list ident * expr => surface (snd p)) bs = true ->
  Forall (fun b : list ident * expr => T0 (snd b)) bs.
Proof. intros H S0. rewrite forallb_forall in S0. rewrite Forall_forall in *. auto. Qed.
Theorem L0_total e : surface e = true -> T0 e.
Proof.
  induction e using expr_ind'; cbn [surface]; intros Sf; try discriminate;
    rewrite ?andb_true_iff in Sf; repeat match goal with H : _ /\ _ |- _ => destruct H end;
    try (apply T0_leaf; exact I);
    eauto using T0_define, T0_set, T0_lam, T0_begin, T0_values, T0_app, T0_if, T0_cwv, T0_let, T0_letrec, T0_list, surf_list, surf_binds.
  apply T0_case. rewrite forallb_forall in Sf. rewrite Forall_forall in *. intros c Hc. apply T0_list, surf_list; auto.
Qed.

(** ** L1 *)
Fixpoint size (e : expr) : nat :=
  S (match e with
     | EConst _ | EUnbound | EVar _ => 0
     | EDefine _ e | ESet _ e => size e
     | ELam _ b => list_sum (map size b)
     | ECase cls => list_sum (map (fun c => list_sum (map size (snd c))) cls)
     | EBegin es | EMvValues es | EValues es => list_sum (map size es)
     | EIf a b c => size a + size b + size c
     | EApp f es => size f + list_sum (map size es)
     | EMvCall e c | ECwv e c => size e + size c
     | EMvLet e _ b => size e + size b
     | ELet bs b | ELetrec bs b => list_sum (map (fun p => size (snd p)) bs) + list_sum (map size b)
     end).
(** [F1 e q]: with enough fuel L1 gives [q]. *)
Definition F1 (e q : expr) : Prop := exists f, opt_L1 f e = Some q.
Definition T1 (e : expr) : Prop := exists q, F1 e q /\ nf q = true.
Definition T1s (es : list expr) : Prop := exists f es', seq1 (opt_L1 f) es = Some es' /\ forallb nf es' = true.
Lemma T1_list es : Forall T1 es -> T1s es.
Proof.
  induction 1 as [|e es (q & (f1 & E1) & N1) _ (f2 & es2 & E2 & N2)]; [exists 0, []; auto|].
  exists (f1 + f2), (q :: es2). simpl. rewrite (L1_le _ (f1 + f2) _ _ E1 ltac:(lia)), (L1s_le _ (f1 + f2) _ _ E2 ltac:(lia)), N1. auto.
Qed.
Lemma T1_clauses cls : Forall (fun c : clause => T1s (snd c)) cls -> T1 (ECase cls).
Proof.
  intros H. assert (X : exists f cls', clauses1 (opt_L1 f) cls = Some cls' /\ forallb (fun c : clause => forallb nf (snd c)) cls' = true).
  { induction H as [|[fm b] cls (f1 & b' & E1 & N1) _ (f2 & cls' & E2 & N2)]; [exists 0, []; auto|].
    exists (f1 + f2), ((fm, b') :: cls'). simpl in *. rewrite (L1s_le _ (f1 + f2) _ _ E1 ltac:(lia)), (L1c_le _ (f1 + f2) _ _ E2 ltac:(lia)), N1. auto. }
  destruct X as (f & cls' & E & N). exists (ECase cls'). split; auto. exists (S f). cbn [opt_L1]. rewrite E. auto.
Qed.
Lemma T1_leaf e : match e with EConst _ | EUnbound | EVar _ => True | _ => False end -> T1 e.
Proof. intros H. exists e. destruct e; try tauto; split; auto; exists 1; auto. Qed.
Lemma T1_define ids e : T1 e -> T1 (EDefine ids e).
Proof. intros (q & (f & E) & N). exists (EDefine ids q). split; auto. exists (S f). cbn [opt_L1]. rewrite E. auto. Qed.
Lemma T1_set x e : T1 e -> T1 (ESet x e).
Proof. intros (q & (f & E) & N). exists (ESet x q). split; auto. exists (S f). cbn [opt_L1]. rewrite E. auto. Qed.
Lemma T1_lam fm b : T1s b -> T1 (ELam fm b).
Proof. intros (f & q & E & N). exists (ELam fm q). split; auto. exists (S f). cbn [opt_L1]. rewrite E. auto. Qed.
Lemma T1_begin b : T1s b -> T1 (EBegin b).
Proof. intros (f & q & E & N). exists (EBegin q). split; auto. exists (S f). cbn [opt_L1]. rewrite E. auto. Qed.
Lemma T1_mvvalues b : T1s b -> T1 (EMvValues b).
Proof. intros (f & q & E & N). exists (EMvValues q). split; auto. exists (S f). cbn [opt_L1]. rewrite E. auto. Qed.
Lemma T1_values es : Forall T1 es -> T1 (EValues es).
Proof.
  intros H. destruct (T1_list es H) as (f & q & E & N). destruct es as [|e [|e2 es]].
  - exists (EMvValues []). split; auto. exists 1. auto.
  - inversion H as [|? ? (q1 & (f1 & E1) & N1)]; subst. exists q1. split; auto. exists (S f1). auto.
  - exists (EMvValues q). split; auto. exists (S f). cbn [opt_L1]. rewrite E. auto.
Qed.
Lemma T1_if a b c : T1 a -> T1 b -> T1 c -> T1 (EIf a b c).
Proof.
  intros (qa & (fa & Ea) & Na) (qb & (fb & Eb) & Nb) (qc & (fc & Ec) & Nc). exists (EIf qa qb qc). split; [|simpl; rewrite Na, Nb, Nc; auto].
  exists (S (fa + fb + fc)). cbn [opt_L1].
  rewrite (L1_le _ (fa + fb + fc) _ _ Ea ltac:(lia)), (L1_le _ (fa + fb + fc) _ _ Eb ltac:(lia)), (L1_le _ (fa + fb + fc) _ _ Ec ltac:(lia)). auto.
Qed.
Lemma T1_app g es : T1 g -> T1s es -> T1 (EApp g es).
Proof.
  intros (q & (f1 & E1) & N1) (f2 & es' & E2 & N2). exists (EApp q es'). split; [|simpl; rewrite N1; auto].
  exists (S (f1 + f2)). cbn [opt_L1]. rewrite (L1_le _ (f1 + f2) _ _ E1 ltac:(lia)), (L1s_le _ (f1 + f2) _ _ E2 ltac:(lia)). auto.
Qed.
Lemma T1_mvlet e fm b : T1 e -> T1 b -> T1 (EMvLet e fm b).
Proof.
  intros (q & (f1 & E1) & N1) (q2 & (f2 & E2) & N2). exists (EMvLet q fm q2). split; [|simpl; rewrite N1; auto].
  exists (S (f1 + f2)). cbn [opt_L1]. rewrite (L1_le _ (f1 + f2) _ _ E1 ltac:(lia)), (L1_le _ (f1 + f2) _ _ E2 ltac:(lia)). auto.
Qed.
(** A call that is rewritten terminates when the rewritten expression does. *)
Lemma T1_mvcall e c : nf e = true -> nf c = true -> (forall e1, mvcall_expr e c = inl e1 -> T1 e1) ->
  exists f q, match mvcall_expr e c with inl e1 => opt_L1 f e1 | inr e1 => Some e1 end = Some q /\ nf q = true.
Proof.
  intros Ne Nc H. destruct (mvcall_expr e c) as [e1|e1] eqn:M.
  - destruct (H e1 eq_refl) as (q & (f & E) & N). eauto.
  - exists 0, e1. split; auto.
    assert (e1 = EMvCall e c) as ->.
    { unfold mvcall_expr in M. destruct e; try discriminate; repeat match goal with H : match ?x with _ => _ end = inr _ |- _ => destruct x; try discriminate end; congruence. }
    simpl. unfold stuck. rewrite Ne, Nc, M. auto.
Qed.
Lemma nf_total e : nf e = true -> T1 e.
Proof.
  induction e using expr_ind'; cbn [nf]; intros Nf; try discriminate;
    rewrite ?andb_true_iff in Nf; repeat match goal with H : _ /\ _ |- _ => destruct H end; try (apply T1_leaf; exact I);
    repeat match goal with
    | H : Forall (fun e => nf e = true -> T1 e) ?l, K : forallb nf ?l = true |- _ =>
        assert (T1s l) by (apply T1_list; rewrite forallb_forall in K; rewrite Forall_forall in *; auto); clear H
    end; eauto using T1_define, T1_set, T1_lam, T1_begin, T1_mvvalues, T1_app, T1_if, T1_mvlet.
  - apply T1_clauses. rewrite forallb_forall in Nf. rewrite Forall_forall in *. intros c Hc. apply T1_list. specialize (H c Hc). specialize (Nf c Hc).
    rewrite forallb_forall in Nf. rewrite Forall_forall in *. auto.
  - exists (EMvCall e1 e2). split; [|simpl; rewrite H, H1, H0; auto]. exists 1. cbn [opt_L1]. unfold stuck in H0.
    destruct (mvcall_expr e1 e2) as [e|e] eqn:M; [discriminate|]. f_equal. unfold mvcall_expr in M.
    destruct e1; try discriminate; repeat match goal with H : match ?x with _ => _ end = inr _ |- _ => destruct x; try discriminate end; congruence.
Qed.
Lemma nf_list es : forallb nf es = true -> Forall T1 es.
Proof. intros H. rewrite forallb_forall in H. apply Forall_forall. intros. apply nf_total; auto. Qed.
Lemma nf_begin1 es : forallb nf es = true -> nf (begin1 es) = true.
Proof. destruct es as [|e [|]]; simpl; auto. rewrite andb_true_r. auto. Qed.
Lemma size_begin1 es : size (begin1 es) <= S (list_sum (map size es)).
Proof. destruct es as [|e [|]]; simpl; lia. Qed.
Lemma into_last_total c es : (forall e, In e es -> T1 (EMvCall e c)) -> forallb nf es = true -> Forall T1 (into_last es c).
Proof.
  induction es as [|e es IH]; intros H N; [constructor|]. simpl in N. apply andb_true_iff in N as [N1 N2].
  destruct es as [|e2 es]; [constructor; auto; apply H; left; auto|].
  change (into_last (e :: e2 :: es) c) with (e :: into_last (e2 :: es) c). constructor; [apply nf_total; auto|]. apply IH; auto. intros. apply H; right; auto.
Qed.
Lemma in_size e es : In e es -> size e <= list_sum (map size es).
Proof. induction es; simpl; [tauto|]. intros [->|H]; [lia|]. apply IHes in H. unfold list_sum in *. lia. Qed.
Lemma mvcall_total k : forall e c, size e <= k -> nf e = true -> nf c = true -> forall e1, mvcall_expr e c = inl e1 -> T1 e1.
Proof.
  induction k as [|k IH]; intros e c Sz Ne Nc e1 M; [destruct e; simpl in Sz; lia|].
  assert (REC : forall e', size e' <= k -> nf e' = true -> T1 (EMvCall e' c)).
  { intros e' S' N'. destruct (T1_mvcall e' c N' Nc (IH e' c S' N' Nc)) as (f & q & E & N). exists q. split; auto. exists (S f). cbn [opt_L1].
    destruct (mvcall_expr e' c); auto. }
  assert (LAST : forall fm body, c = ELam fm body -> T1 (EMvLet e fm (begin1 body))).
  { intros fm body ->. apply T1_mvlet; apply nf_total; auto. apply nf_begin1. auto. }
  unfold mvcall_expr in M. 
  destruct e; cbn [nf] in Ne; try discriminate;
    try (injection M as <-);
    try (destruct c; try discriminate; destruct (req fm); try discriminate; injection M as <-; apply LAST; auto; fail).
  all: rewrite ?andb_true_iff in Ne; repeat match goal with H : _ /\ _ |- _ => destruct H end.
  all: try (apply T1_app; [apply nf_total; auto|apply T1_list; auto using nf_list]; constructor; auto; apply nf_total; simpl; rewrite ?andb_true_iff; auto; fail).
  - apply T1_begin, T1_list, into_last_total; auto. intros e He. apply REC; [apply in_size in He; simpl in Sz; lia|]. rewrite forallb_forall in Ne; auto.
  - simpl in Sz. apply T1_if; [apply nf_total; auto| |]; apply REC; auto; lia.
  - assert (L : match c with ELam fm body => match req fm with [] => inr (EMvCall (EApp e args) c) | _ => inl (EMvLet (EApp e args) fm (begin1 body)) end | _ => inr (EMvCall (EApp e args) c) end = inl e1 -> T1 e1).
    { intros L. destruct c; try discriminate. destruct (req fm); try discriminate. injection L as <-. apply LAST; auto. }
    destruct e; auto. destruct fm as [[|] [|]]; auto. injection M as <-. apply REC; [|apply nf_begin1; auto].
    pose proof (size_begin1 body). simpl in Sz. lia.
Qed.
Theorem L1_total e : flat e = true -> T1 e.
Proof.
  assert (LS : forall l, Forall (fun e => flat e = true -> T1 e) l -> forallb flat l = true -> Forall T1 l).
  { intros l H K. rewrite forallb_forall in K. rewrite Forall_forall in *. auto. }
  induction e using expr_ind'; cbn [flat]; intros Sf; try discriminate;
    rewrite ?andb_true_iff in Sf; repeat match goal with H : _ /\ _ |- _ => destruct H end;
    try (apply T1_leaf; exact I);
    eauto using T1_define, T1_set, T1_lam, T1_begin, T1_values, T1_app, T1_if, T1_list.
  - apply T1_clauses. rewrite forallb_forall in Sf. rewrite Forall_forall in *. intros c Hc. apply T1_list, LS; auto.
  - destruct IHe1 as (p' & (f1 & E1) & N1); auto. destruct IHe2 as (c' & (f2 & E2) & N2); auto.
    assert (NA : nf (EApp p' []) = true) by (simpl; rewrite N1; auto).
    destruct (T1_mvcall (EApp p' []) c' NA N2 (mvcall_total _ _ _ (Nat.le_refl _) NA N2)) as (f3 & q & E3 & N3).
    exists q. split; auto. exists (S (f1 + f2 + f3)). cbn [opt_L1].
    rewrite (L1_le _ (f1 + f2 + f3) _ _ E1 ltac:(lia)), (L1_le _ (f1 + f2 + f3) _ _ E2 ltac:(lia)).
    destruct (mvcall_expr (EApp p' []) c'); auto. apply (L1_le f3); auto; lia.
Qed.

(** ** L2 *)
Definition T2 (e : expr) : Prop := exists f q, opt_L2 f e = Some q.
Definition T2s (es : list expr) : Prop := exists f es', seq1 (opt_L2 f) es = Some es'.
Lemma T2_list es : Forall T2 es -> T2s es.
Proof.
  induction 1 as [|e es (f1 & q & E1) _ (f2 & es2 & E2)]; [exists 0, []; auto|].
  exists (f1 + f2), (q :: es2). simpl. rewrite (L2_le _ (f1 + f2) _ _ E1 ltac:(lia)), (L2s_le _ (f1 + f2) _ _ E2 ltac:(lia)). auto.
Qed.
Lemma T2_clauses cls : Forall (fun c : clause => T2s (snd c)) cls -> T2 (ECase cls).
Proof.
  intros H. assert (X : exists f cls', clauses1 (opt_L2 f) cls = Some cls').
  { induction H as [|[fm b] cls (f1 & b' & E1) _ (f2 & cls' & E2)]; [exists 0, []; auto|].
    exists (f1 + f2), ((fm, b') :: cls'). simpl in *. rewrite (L2s_le _ (f1 + f2) _ _ E1 ltac:(lia)), (L2c_le _ (f1 + f2) _ _ E2 ltac:(lia)). auto. }
  destruct X as (f & cls' & E). exists (S f), (ECase cls'). cbn [opt_L2]. rewrite E. auto.
Qed.
Lemma T2_leaf e : match e with EConst _ | EUnbound | EVar _ => True | _ => False end -> T2 e.
Proof. intros H. exists 1, e. destruct e; try tauto; auto. Qed.
Lemma T2_define ids e : T2 e -> T2 (EDefine ids e).
Proof. intros (f & q & E). exists (S f), (EDefine ids q). cbn [opt_L2]. rewrite E. auto. Qed.
Lemma T2_set x e : T2 e -> T2 (ESet x e).
Proof. intros (f & q & E). exists (S f), (ESet x q). cbn [opt_L2]. rewrite E. auto. Qed.
Lemma T2_lam fm b : T2s b -> T2 (ELam fm b).
Proof. intros (f & q & E). exists (S f), (ELam fm q). cbn [opt_L2]. rewrite E. auto. Qed.
Lemma T2_begin b : T2s b -> T2 (EBegin b).
Proof. intros (f & q & E). exists (S f), (EBegin q). cbn [opt_L2]. rewrite E. auto. Qed.
Lemma T2_mvvalues b : T2s b -> T2 (EMvValues b).
Proof. intros (f & q & E). exists (S f), (EMvValues q). cbn [opt_L2]. rewrite E. auto. Qed.
Lemma T2_if a b c : T2 a -> T2 b -> T2 c -> T2 (EIf a b c).
Proof.
  intros (fa & qa & Ea) (fb & qb & Eb) (fc & qc & Ec). exists (S (fa + fb + fc)), (EIf qa qb qc). cbn [opt_L2].
  rewrite (L2_le _ (fa + fb + fc) _ _ Ea ltac:(lia)), (L2_le _ (fa + fb + fc) _ _ Eb ltac:(lia)), (L2_le _ (fa + fb + fc) _ _ Ec ltac:(lia)). auto.
Qed.
Lemma T2_mvcall e b : T2 e -> T2 b -> T2 (EMvCall e b).
Proof.
  intros (f1 & q & E1) (f2 & q2 & E2). exists (S (f1 + f2)), (EMvCall q q2). cbn [opt_L2].
  rewrite (L2_le _ (f1 + f2) _ _ E1 ltac:(lia)), (L2_le _ (f1 + f2) _ _ E2 ltac:(lia)). auto.
Qed.
Lemma T2_mvlet e fm b : T2 e -> T2 b -> T2 (EMvLet e fm b).
Proof.
  intros (f1 & q & E1) (f2 & q2 & E2). exists (S (f1 + f2)), (EMvLet q fm q2). cbn [opt_L2].
  rewrite (L2_le _ (f1 + f2) _ _ E1 ltac:(lia)), (L2_le _ (f1 + f2) _ _ E2 ltac:(lia)). auto.
Qed.
Lemma T2_begin1 b : Forall T2 b -> T2 (begin1 b).
Proof. intros H. unfold begin1. destruct b as [|e [|]]; [|inversion H; auto|]; apply T2_begin, T2_list; auto. Qed.
(** An application of a variable is never immediate. *)
Lemma T2_appvar x es : T2s es -> T2 (EApp (EVar x) es).
Proof. intros (f & q & E). exists (S (S f)), (EApp (EVar x) q). apply (L2s_le _ (S f)) in E; [|lia]. remember (S f) as g eqn:Hg. cbn [opt_L2]. rewrite E, Hg. auto. Qed.
Lemma T2_imm ids body args : Forall T2 body -> Forall T2 args -> T2 (imm_expr ids body args).
Proof.
  intros B A. apply T2_begin1 in B. unfold imm_expr. destruct args as [|a [|]]; auto.
  - inversion A; subst. apply T2_mvlet; auto.
  - apply T2_mvlet; auto. apply T2_appvar, T2_list; auto.
Qed.
Lemma T2_app g es : T2 g -> match g with ELam _ b => Forall T2 b | _ => True end -> Forall T2 es -> T2 (EApp g es).
Proof.
  intros (f1 & q & E1) G H. destruct (T2_list es H) as (f2 & es' & E2).
  assert (GEN : (forall ids b, g <> ELam (Formals ids None) b) -> T2 (EApp g es)).
  { intros D. exists (S (f1 + f2)), (EApp q es'). cbn [opt_L2].
    apply (L2_le _ (f1 + f2)) in E1; [|lia]. apply (L2s_le _ (f1 + f2)) in E2; [|lia].
    destruct g; try (rewrite E1, E2; reflexivity). destruct fm as [ids [r|]]; [rewrite E1, E2; reflexivity|]. destruct (D ids body); auto. }
  destruct g; try (apply GEN; intros; discriminate). destruct fm as [ids [r|]]; [apply GEN; intros; discriminate|].
  destruct (T2_imm ids body es G H) as (f & q' & E). exists (S f), q'. auto.
Qed.
Theorem L2_total e : nf e = true -> T2 e.
Proof.
  intros N. cut (T2 e /\ match e with ELam _ b => Forall T2 b | _ => True end); [tauto|]. revert N.
  assert (LS : forall l, Forall (fun e => nf e = true -> T2 e /\ match e with ELam _ b => Forall T2 b | _ => True end) l -> forallb nf l = true -> Forall T2 l).
  { intros l H K. rewrite forallb_forall in K. rewrite Forall_forall in *. intros x Hx. apply H; auto. }
  induction e using expr_ind'; cbn [nf]; intros Sf; try discriminate;
    rewrite ?andb_true_iff in Sf; repeat match goal with H : _ /\ _ |- _ => destruct H end;
    repeat match goal with IH : nf ?e = true -> _, K : nf ?e = true |- _ => destruct (IH K); clear IH end;
    (split; [|exact I || (apply LS; auto)]);
    try (apply T2_leaf; exact I);
    eauto using T2_define, T2_set, T2_lam, T2_begin, T2_mvvalues, T2_app, T2_if, T2_list, T2_mvcall, T2_mvlet.
  apply T2_clauses. rewrite forallb_forall in Sf. rewrite Forall_forall in *. intros c Hc. apply T2_list, LS; auto.
Qed.

(** ** The three passes *)
Theorem optimize_total n e : surface e = true -> exists f0 r, forall f, f0 <= f -> optimize f n e = Some r.
Proof.
  intros Sf. destruct (L0_total e Sf n) as (f0 & e0 & n0 & E0 & F0). destruct (L1_total e0 F0) as (e1 & (f1 & E1) & N1).
  destruct (L2_total e1 N1) as (f2 & e2 & E2). exists (f0 + f1 + f2), (e2, n0). intros f L. unfold optimize.
  rewrite (L0_le f0 f _ _ _ E0 ltac:(lia)), (L1_le f1 f _ _ E1 ltac:(lia)), (L2_le f2 f _ _ E2 ltac:(lia)). auto.
Qed.
Lemma optimize_le f g n e r : f <= g -> optimize f n e = Some r -> optimize g n e = Some r.
Proof.
  intros L. unfold optimize. destruct (opt_L0 f n e) as [[e0 n0]|] eqn:E0; [|discriminate]. rewrite (L0_le _ _ _ _ _ E0 L).
  destruct (opt_L1 f e0) as [e1|] eqn:E1; [|discriminate]. rewrite (L1_le _ _ _ _ E1 L).
  destruct (opt_L2 f e1) as [e2|] eqn:E2; [|discriminate]. rewrite (L2_le _ _ _ _ E2 L). auto.
Qed.
