(** A step of optimisation preserves the meaning of expressions. *)
From Coq Require Import ZArith NArith Bool Ascii String List Arith Lia Permutation.
From Verif Require Import Base Heap HeapM Ast Sem Opt OptRel OptSim.
Import ListNotations.
Local Open Scope list_scope.

Scheme eval_min := Minimality for eval Sort Prop
  with evseq_min := Minimality for evseq Sort Prop
  with eval1_min := Minimality for eval1 Sort Prop
  with evargs_min := Minimality for evargs Sort Prop
  with evbinds_min := Minimality for evbinds Sort Prop
  with evrec_min := Minimality for evrec Sort Prop
  with apply_min := Minimality for apply Sort Prop.
Combined Scheme eval_min_all from eval_min, evseq_min, eval1_min, evargs_min, evbinds_min, evrec_min, apply_min.

(** ** Facts about evaluation *)
Section Facts.
  Variable prim : N -> list val -> heap -> option presult.
  Notation eval := (eval prim).
  Notation evseq := (evseq prim).
  Notation eval1 := (eval1 prim).
  Notation evargs := (evargs prim).
  Notation apply := (apply prim).

  Lemma begin1_eval t r s es x s1 : evseq t r s es x s1 -> eval t r s (begin1 es) x s1.
  Proof.
    destruct es as [|e [|e' es]]; intros H; simpl; [constructor; auto| |constructor; auto]. inversion H; subst; auto.
  Qed.
  Lemma literal_eval t r s c cls v s1 :
    literal c = Some cls -> new_proc (PClo cls r) s = (v, s1) -> eval1 t r s c (inl v) s1.
  Proof.
    intros L N. destruct c; try discriminate; simpl in L.
    - injection L as <-. constructor. constructor. auto.
    - destruct cls0; [discriminate|]. injection L as <-. constructor. constructor; auto. discriminate.
  Qed.
  Lemma literal_inv t r s c cls y s1 :
    literal c = Some cls -> eval1 t r s c y s1 -> exists v, y = inl v /\ new_proc (PClo cls r) s = (v, s1).
  Proof.
    intros L E. destruct c; try discriminate; simpl in L.
    - injection L as <-. inversion E as [? ? ? ? ? ? H|? ? ? ? ? ? H N|? ? ? ? ? ? H]; subst; inversion H; subst; eauto. simpl in N. lia.
    - destruct cls0; [discriminate|]. injection L as <-.
      inversion E as [? ? ? ? ? ? H|? ? ? ? ? ? H N|? ? ? ? ? ? H]; subst; inversion H; subst; eauto. simpl in N. lia.
  Qed.

  Lemma into_last_vals t r c x s2 es : forall s vs s1,
    evseq t r s es (RVals vs) s1 -> es <> [] ->
    (forall s0 e, eval t r s0 e (RVals vs) s1 -> eval t r s0 (EMvCall e c) x s2) ->
    evseq t r s (into_last es c) x s2.
  Proof.
    induction es as [|e es IH]; intros s vs s1 H N K; [congruence|]. destruct es as [|e' es].
    - inversion H; subst. constructor. auto.
    - inversion H as [| |? ? ? ? ? ? ws s3 ? ? EV ES|]; subst. assert (P := IH s3 vs s1 ES ltac:(discriminate) K).
      change (evseq t r s (e :: into_last (e' :: es) c) x s2).
      destruct (into_last (e' :: es) c) eqn:Q; [destruct es; discriminate|]. econstructor; eauto.
  Qed.
  Lemma into_last_err t r c es : forall s y s1,
    evseq t r s es (RErr y) s1 -> evseq t r s (into_last es c) (RErr y) s1.
  Proof.
    induction es as [|e es IH]; intros s y s1 H; [inversion H|]. destruct es as [|e' es].
    - inversion H; subst. constructor. constructor. auto.
    - change (evseq t r s (e :: into_last (e' :: es) c) (RErr y) s1).
      inversion H as [| |? ? ? ? ? ? ws s3 ? ? EV ES|]; subst.
      + assert (P := IH _ _ _ ES). destruct (into_last (e' :: es) c) eqn:Q; [destruct es; discriminate|]. econstructor; eauto.
      + destruct (into_last (e' :: es) c) eqn:Q; [destruct es; discriminate|]. apply EsErr; auto.
  Qed.
  Lemma mvcall_inv t r s p c x s1 :
    eval t r s (EMvCall p c) x s1 ->
    (exists vs s2 fv s3, eval t r s p (RVals vs) s2 /\ eval1 t r s2 c (inl fv) s3 /\ apply s3 fv vs x s1) \/
    (exists y, x = RErr y /\ eval t r s p (RErr y) s1) \/
    (exists vs s2 y, x = RErr y /\ eval t r s p (RVals vs) s2 /\ eval1 t r s2 c (inr y) s1).
  Proof. intros H. inversion H; subst; eauto 10. Qed.
  Lemma post_eval e e' t r s x s1 : post e e' -> eval t r s e x s1 -> eval t r s e' x s1.
  Proof.
    intros P. destruct P as [e|es c N|a b d c]; intros H; auto.
    - constructor. apply mvcall_inv in H; destruct H as [[vs [s2 [fv [s3 [A [B C]]]]]]|[[y [-> A]]|[vs [s2 [y [-> [A B]]]]]]];
        inversion A; subst.
      + eapply into_last_vals; eauto. intros s0 e E. eapply EvMvCall; eauto.
      + apply into_last_err. auto.
      + eapply into_last_vals; eauto. intros s0 e E. eapply EvMvCallErrC; eauto.
    - apply mvcall_inv in H; destruct H as [[vs [s2 [fv [s3 [A [B C]]]]]]|[[y [-> A]]|[vs [s2 [y [-> [A B]]]]]]];
        inversion A; subst.
      + eapply EvIfTrue; eauto; eapply EvMvCall; eauto.
      + eapply EvIfFalse; eauto; eapply EvMvCall; eauto.
      + eapply EvIfTrue; eauto; apply EvMvCallErrP; eauto.
      + eapply EvIfFalse; eauto; apply EvMvCallErrP; eauto.
      + apply EvIfErr; eauto.
      + eapply EvIfTrue; eauto; eapply EvMvCallErrC; eauto.
      + eapply EvIfFalse; eauto; eapply EvMvCallErrC; eauto.
  Qed.

  (** Procedures stay where they are. *)
  Definition keep (s s1 : store) : Prop :=
    List.length (heap_of s) <= List.length (heap_of s1) /\
    forall l, l < List.length (heap_of s) -> proc_ref l (procs_of s1) = proc_ref l (procs_of s).
  Lemma keep_refl s : keep s s.
  Proof. split; auto. Qed.
  Lemma keep_trans a b c : keep a b -> keep b c -> keep a c.
  Proof. intros [A B] [C D]. split; [lia|]. intros l H. rewrite D by lia. auto. Qed.
  Lemma keep_new p s v s1 : new_proc p s = (v, s1) -> keep s s1.
  Proof.
    intros E. injection E as <- <-. split; simpl; [rewrite app_length; lia|]. intros l H.
    destruct (Nat.eqb_spec (List.length (heap_of s)) l); auto. lia.
  Qed.
  Lemma keep_bind fm vs r s r1 s1 : bind_clause fm vs r s = (r1, s1) -> keep s s1.
  Proof.
    unfold bind_clause. destruct (rest fm); simpl; intros E; injection E as <- <-; split; simpl; auto. rewrite app_length. lia.
  Qed.
  Lemma set_globs_same xs vs s : heap_of (set_globs xs vs s) = heap_of s /\ procs_of (set_globs xs vs s) = procs_of s.
  Proof. revert vs s. induction xs as [|x xs IH]; intros [|v vs] s; simpl; auto. destruct (IH vs (set_glob x v s)). auto. Qed.
  Lemma set_cells_same ls vs s : heap_of (set_cells ls vs s) = heap_of s /\ procs_of (set_cells ls vs s) = procs_of s.
  Proof. revert vs s. induction ls as [|x xs IH]; intros [|v vs] s; simpl; auto. destruct (IH vs (set_cell x v s)). auto. Qed.
  Lemma keep_same s s1 : heap_of s1 = heap_of s -> procs_of s1 = procs_of s -> keep s s1.
  Proof. intros A B. unfold keep. rewrite A, B. auto. Qed.

  Hypothesis AL : allocates prim.
  Lemma keeps :
    (forall t r s e x s1, eval t r s e x s1 -> keep s s1) /\
    (forall t r s e x s1, evseq t r s e x s1 -> keep s s1) /\
    (forall t r s e x s1, eval1 t r s e x s1 -> keep s s1) /\
    (forall t r s e x s1, evargs t r s e x s1 -> keep s s1) /\
    (forall t r s e x s1, evbinds prim t r s e x s1 -> keep s s1) /\
    (forall t r s k e x s1, evrec prim t r s k e x s1 -> keep s s1) /\
    (forall s f vs x s1, apply s f vs x s1 -> keep s s1).
  Proof.
    apply eval_min_all; intros; eauto using keep_refl, keep_trans, keep_new, keep_bind.
    - eapply keep_trans; eauto. apply keep_same; apply set_globs_same.
    - eapply keep_trans; eauto. eapply keep_trans; [apply keep_same; [|]; apply (set_cells_same (seq k (List.length ids)) vs s1)|]; auto.
    - split; simpl; auto. apply AL in H1. auto.
    - split; simpl; auto. apply AL in H1. auto.
  Qed.
End Facts.

(** ** Conditions on assignments *)
Definition covers (xs : list ident) (r : lenv) : Prop := forall x, In x xs -> lookup_env x r <> None.
(** [t] and [t'] tell whether the evaluations before and after are outside of any
    procedure. *)
Definition strong (t t' : bool) (r : lenv) (es : list expr) : Prop :=
  (t = false /\ t' = false) \/ exists xs, forallb (locals_only xs) es = true /\ covers xs r.
Definition conds (t t' : bool) (r : lenv) (es : list expr) : Prop :=
  strong t t' r es \/ (t = t' /\ forallb plain es = true).

(** Subexpressions in the same scope. *)
Definition kids (e : expr) : list expr :=
  match e with
  | EDefine _ e | ESet _ e | EMvLet e _ _ => [e]
  | EBegin es | EValues es | EMvValues es => es
  | EIf a b c => [a; b; c]
  | EApp f es => f :: es
  | ECwv p c | EMvCall p c => [p; c]
  | ELet bs _ => map snd bs
  | _ => []
  end.
Lemma locals_kids xs e : locals_only xs e = true -> forallb (locals_only xs) (kids e) = true.
Proof.
  destruct e; simpl; intros H; auto; rewrite ?andb_true_iff in *; try tauto.
  destruct H as [H _]. rewrite forallb_forall in *. intros e I. apply in_map_iff in I. destruct I as [p [<- J]]. auto.
Qed.
Lemma strong_kids t t' r e : strong t t' r [e] -> strong t t' r (kids e).
Proof.
  intros [H|[xs [H C]]]; [left; auto|right]. exists xs. split; auto. simpl in H. apply andb_true_iff in H. apply locals_kids. tauto.
Qed.
Lemma conds_kids t t' r e : conds t t' r [e] -> conds t t' r (kids e).
Proof.
  intros [H|[E H]]; [left; apply strong_kids; auto|]. right. split; auto. simpl in H. rewrite andb_true_r in H.
  destruct e; simpl in *; try discriminate; auto; try (rewrite H; auto; fail); try (rewrite andb_true_r, andb_assoc; auto; fail).
  destruct e; try discriminate. auto.
Qed.
Lemma strong_not_plain t t' r e : conds t t' r [e] -> plain e = false -> strong t t' r [e].
Proof. intros [H|[_ H]] P; auto. simpl in H. rewrite P in H. discriminate. Qed.
Lemma strong_in t t' r es e : strong t t' r es -> In e es -> strong t t' r [e].
Proof.
  intros [H|[xs [H C]]] I; [left; auto|right]. exists xs. split; auto. simpl. rewrite forallb_forall in H. rewrite H; auto.
Qed.
Lemma conds_in t t' r es e : conds t t' r es -> In e es -> conds t t' r [e].
Proof.
  intros [H|[E H]] I; [left; eapply strong_in; eauto|right]. split; auto. simpl. rewrite forallb_forall in H. rewrite H; auto.
Qed.
Lemma conds_tl t t' r e es : conds t t' r (e :: es) -> conds t t' r es.
Proof.
  intros [[H|[xs [H C]]]|[E H]]; [left; left; auto|left; right; exists xs|right]; simpl in H; apply andb_true_iff in H; tauto.
Qed.
Lemma strong_false t t' r es : strong t t' r es -> strong false t' r es /\ strong t false r es /\ strong false false r es.
Proof. intros [[-> ->]|H]; repeat split; try (left; auto; fail); right; auto. Qed.
Lemma conds_false r es : conds false false r es.
Proof. left. left. auto. Qed.

Lemma covers_bind ids xs n r : covers xs r -> covers (ids ++ xs) (bind_env ids n r).
Proof.
  intros C x I. destruct (in_dec ident_dec x ids) as [J|J].
  - destruct (lookup_bind_env_in x ids n r J) as [k [-> _]]. discriminate.
  - rewrite lookup_bind_env_not by auto. apply in_app_iff in I. destruct I as [I|I]; [tauto|]. apply C. auto.
Qed.
Lemma covers_clause fm xs vs r s r1 s1 : covers xs r -> bind_clause fm vs r s = (r1, s1) -> covers (fm_ids fm ++ xs) r1.
Proof.
  intros C. unfold bind_clause, fm_ids. destruct fm as [ids [y|]]; simpl; intros E; injection E as <- <-.
  - rewrite <- bind_env_snoc. apply covers_bind. auto.
  - rewrite app_nil_r. apply covers_bind. auto.
Qed.
Lemma strong_literal t t' r c cls n fm b vs s r1 s1 :
  strong t t' r [c] -> literal c = Some cls -> select cls n = Some (fm, b) -> bind_clause fm vs r s = (r1, s1) ->
  strong false t' r1 b.
Proof.
  intros [[-> ->]|[xs [H C]]] L S B; [left; auto|right]. exists (fm_ids fm ++ xs). split; [|eapply covers_clause; eauto].
  simpl in H. rewrite andb_true_r in H. destruct c; try discriminate; simpl in L.
  - injection L as <-. simpl in *. destruct (accepts fm0 n); [|discriminate]. injection S as <- <-. auto.
  - destruct cls0 as [|k0 cls0]; [discriminate|]. injection L as <-. simpl in H.
    change (forallb (fun c => forallb (locals_only (fm_ids (fst c) ++ xs)) (snd c)) (k0 :: cls0) = true) in H.
    revert S H. generalize (k0 :: cls0). induction l as [|[fm1 b1] l IH]; intros S H; [discriminate|]. simpl in *.
    apply andb_true_iff in H. destruct H. destruct (accepts fm1 n); auto. injection S as <- <-. auto.
Qed.

(** ** The simulation *)
Section Sim.
  Variable prim : N -> list val -> heap -> option presult.
  Hypothesis AL : allocates prim.
  Hypothesis AF : address_free prim.
  Variable resv : ident -> Prop.
  Variables unb vals : bool.
  Variable base : nat.
  Notation eval := (eval prim).
  Notation evseq := (evseq prim).
  Notation eval1 := (eval1 prim).
  Notation evargs := (evargs prim).
  Notation evbinds := (evbinds prim).
  Notation evrec := (evrec prim).
  Notation apply := (apply prim).
  Notation opt := (opt resv unb vals base).
  Notation opts := (opts resv unb vals base).
  Notation optcs := (optcs resv unb vals base).
  Notation optbs := (optbs resv unb vals base).
  Notation okid := (okid resv vals).
  Notation tmpid := (tmpid resv vals).
  Notation erel := (erel resv vals).
  Notation srel := (srel resv unb vals base).
  Notation prel := (prel resv unb vals base).
  Notation vr i := (vrel unb (hp i)).
  Notation vsr i := (vsrel unb (hp i)).
  Hint Resolve le_refl le_trans : core.

  Definition r1rel (h : renaming) (x x' : val + err) : Prop :=
    match x, x' with inl v, inl v' => vrel unb h v v' | inr y, inr y' => errrel unb h y y' | _, _ => False end.
  Definition rarel (h : renaming) (x x' : list val + err) : Prop :=
    match x, x' with inl v, inl v' => vsrel unb h v v' | inr y, inr y' => errrel unb h y y' | _, _ => False end.
  Definition bad1 {A} (x : A + err) : bool := match x with inl _ => false | inr y => count_err y end.

  Definition sim_eval (t : bool) (r : lenv) (s : store) (e : expr) (x : res) (s1 : store) : Prop :=
    forall t' r' s' e' i, opt e e' -> conds t t' r [e] -> erel i r r' -> srel i s s' ->
    count_error x = true \/
    exists x' s1' j, eval t' r' s' e' x' s1' /\ le i j /\ rrel unb (hp j) x x' /\ srel j s1 s1'.
  Definition sim_evseq (t : bool) (r : lenv) (s : store) (es : list expr) (x : res) (s1 : store) : Prop :=
    forall t' r' s' es' i, opts es es' -> conds t t' r es -> erel i r r' -> srel i s s' ->
    count_error x = true \/
    exists x' s1' j, evseq t' r' s' es' x' s1' /\ le i j /\ rrel unb (hp j) x x' /\ srel j s1 s1'.
  Definition sim_eval1 (t : bool) (r : lenv) (s : store) (e : expr) (x : val + err) (s1 : store) : Prop :=
    forall t' r' s' e' i, opt e e' -> conds t t' r [e] -> erel i r r' -> srel i s s' ->
    bad1 x = true \/
    exists x' s1' j, eval1 t' r' s' e' x' s1' /\ le i j /\ r1rel (hp j) x x' /\ srel j s1 s1'.
  Definition sim_evargs (t : bool) (r : lenv) (s : store) (es : list expr) (x : list val + err) (s1 : store) : Prop :=
    forall t' r' s' es' i, opts es es' -> conds t t' r es -> erel i r r' -> srel i s s' ->
    bad1 x = true \/
    exists x' s1' j, evargs t' r' s' es' x' s1' /\ le i j /\ rarel (hp j) x x' /\ srel j s1 s1'.
  Definition body_sim (s : store) (f : val) (vs : list val) (x : res) (s1 : store) : Prop :=
    forall cls r, proc_at f (procs_of s) = Some (PClo cls r) ->
      count_error x = true \/
      exists fm b r1 sb, select cls (List.length vs) = Some (fm, b) /\ bind_clause fm vs r s = (r1, sb) /\
                         sim_evseq false r1 sb b x s1.
  Definition sim_apply (s : store) (f : val) (vs : list val) (x : res) (s1 : store) : Prop :=
    (forall s' f' vs' i, srel i s s' -> vr i f f' -> vsr i vs vs' ->
      count_error x = true \/
      exists x' s1' j, apply s' f' vs' x' s1' /\ le i j /\ rrel unb (hp j) x x' /\ srel j s1 s1') /\
    body_sim s f vs x s1.

  (** Temporaries hold the values computed so far. *)
  Definition tmps_ok (j : inj) (r' : lenv) (ts : list ident) (ws : list val) : Prop :=
    Forall2 (fun x w => exists l w', lookup_env x r' = Some l /\ pv j l = Some w' /\ vr j w w') ts ws.
  Fixpoint revi (bs : list (list ident * expr)) (acc : list ident) : list ident :=
    match bs with [] => acc | (xs, _) :: r => revi r (xs ++ acc) end.
  Fixpoint revt (tss : list (list ident)) (acc : list ident) : list ident :=
    match tss with [] => acc | ts :: r => revt r (ts ++ acc) end.
  Fixpoint revg (bs : list (list ident * expr)) (ws acc : list val) : list val :=
    match bs with
    | [] => acc
    | (xs, _) :: r => revg r (skipn (List.length xs) ws) (firstn (List.length xs) ws ++ acc)
    end.
  Definition lens (bs : list (list ident * expr)) (tss : list (list ident)) : Prop :=
    Forall2 (fun p ts => List.length ts = List.length (fst p)) bs tss.
  Definition sim_evbinds (t : bool) (r : lenv) (s : store) (bs : list (list ident * expr)) (x : list val + err) (s2 : store) : Prop :=
    (forall t' r' s' i bs' tss ids tmps ws0 b',
      unb = false -> optbs bs bs' -> strong t t' r (map snd bs) -> erel i r r' -> srel i s s' ->
      lens bs tss -> Forall tmpid (List.concat tss) -> NoDup (List.concat tss) ->
      (forall y, In y (List.concat tss) -> In y tmps -> False) -> tmps_ok i r' tmps ws0 ->
      match x with
      | inr y => count_err y = true \/
          exists y' s2' j, eval t' r' s' (letn bs' tss ids tmps b') (RErr y') s2' /\ le i j /\ errrel unb (hp j) y y' /\ srel j s2 s2'
      | inl ws =>
          exists tt r2' s2' j, le i j /\ erel j r r2' /\ srel j s2 s2' /\ tmps_ok j r2' (revt tss tmps) (revg bs ws ws0) /\
            forall x s3, eval tt r2' s2' (EApp (ELam (Formals (revi bs ids) None) b') (map EVar (revt tss tmps))) x s3 ->
                         eval t' r' s' (letn bs' tss ids tmps b') x s3
      end) /\
    (forall xs e, bs = [(xs, e)] ->
      match x with
      | inl ws => sim_eval t r s e (RVals ws) s2 /\ List.length ws = List.length xs
      | inr y => count_err y = true \/ sim_eval t r s e (RErr y) s2
      end) /\
    (bs = [] -> x = inl [] /\ s2 = s).
  Definition sim_evrec (t : bool) (r : lenv) (s : store) (k : nat) (bs : list (list ident * expr)) (o : option err) (s2 : store) : Prop :=
    (forall t' r' s' i bs' tss rst,
      unb = false -> optbs bs bs' -> strong t t' r (map snd bs) -> erel i r r' -> srel i s s' ->
      lens bs tss -> Forall tmpid (List.concat tss) -> NoDup (List.concat tss) -> Forall okid (let_ids bs) ->
      (forall a x, nth_error (let_ids bs) a = Some x -> lookup_env x r = Some (k + a)) -> rst <> [] ->
      match o with
      | Some y => count_err y = true \/
          exists y' s2' j, evseq t' r' s' (recsets bs' tss ++ rst) (RErr y') s2' /\ le i j /\ errrel unb (hp j) y y' /\ srel j s2 s2'
      | None => exists s2' j, le i j /\ srel j s2 s2' /\
          forall x s3, evseq t' r' s2' rst x s3 -> evseq t' r' s' (recsets bs' tss ++ rst) x s3
      end) /\
    (bs = [] -> o = None /\ s2 = s).

  (** *** Calls *)
  Lemma call_closure t' s f vs x s1 i s' cls cls' r r' vs' :
    body_sim s f vs x s1 -> proc_at f (procs_of s) = Some (PClo cls r) -> srel i s s' -> optcs cls cls' -> erel i r r' ->
    vsr i vs vs' ->
    (forall n fm b vs0 s0 r1 sb, select cls n = Some (fm, b) -> bind_clause fm vs0 r s0 = (r1, sb) -> conds false t' r1 b) ->
    count_error x = true \/
    exists fm b' r1' sb' x' s1' j,
      select cls' (List.length vs') = Some (fm, b') /\ accepts fm (List.length vs') = true /\
      bind_clause fm vs' r' s' = (r1', sb') /\ evseq t' r1' sb' b' x' s1' /\
      le i j /\ rrel unb (hp j) x x' /\ srel j s1 s1'.
  Proof.
    intros BS P R O E V C. destruct (BS _ _ P) as [B|[fm [b [r1 [sb [S [B Q]]]]]]]; [left; auto|].
    assert (LV := vsrel_length _ _ _ _ V).
    destruct (select_both _ _ _ _ _ _ _ _ _ O S) as [b' [S' [Ob [F A]]]].
    destruct (bind_clause_both _ _ _ _ _ _ _ _ _ _ _ _ _ _ R E F V A B) as [j [r1' [sb' [B' [L [E' R']]]]]].
    destruct (Q t' r1' sb' b' j Ob (C _ _ _ _ _ _ _ S B) E' R') as [X|[x' [s1' [j2 [X [L2 [RR SR]]]]]]]; [left; auto|right].
    exists fm, b', r1', sb', x', s1', j2. rewrite LV. intuition eauto.
  Qed.
  Lemma literal_both c c' cls : opt c c' -> literal c = Some cls -> exists cls', literal c' = Some cls' /\ optcs cls cls'.
  Proof.
    intros O L. destruct c; try discriminate; simpl in L.
    - injection L as <-. inversion O; subst. eexists. split; [reflexivity|]. repeat (constructor; auto).
    - destruct cls0 as [|k0 cls0]; [discriminate|]. injection L as <-. inversion O; subst.
      + inversion H0; subst. eexists. split; [reflexivity|]. constructor; auto.
      + eexists. split; [reflexivity|]. repeat (constructor; auto).
  Qed.
  Lemma proc_at_both i s s' f f' : srel i s s' -> vr i f f' -> orel (prel i) (proc_at f (procs_of s)) (proc_at f' (procs_of s')).
  Proof.
    intros R V. destruct f; simpl in V; try (subst f'; simpl; auto; fail); [destruct V; subst; simpl; auto|].
    destruct (hp i l) eqn:Q; [|tauto]. subst f'. simpl. eapply sr_procs; eauto.
  Qed.
  Lemma proc_at_sys i s s' f f' p : srel i s s' -> vr i f f' -> proc_at f (procs_of s) = Some p -> (forall cls r, p <> PClo cls r) ->
    proc_at f' (procs_of s') = Some p.
  Proof.
    intros R V P N. assert (Q := proc_at_both _ _ _ _ _ R V). rewrite P in Q. destruct (proc_at f' (procs_of s')); simpl in Q; [|tauto].
    inversion Q; subst; auto. destruct (N _ _ eq_refl).
  Qed.
  Lemma proc_at_none i s s' f f' : srel i s s' -> vr i f f' -> proc_at f (procs_of s) = None -> proc_at f' (procs_of s') = None.
  Proof.
    intros R V P. assert (Q := proc_at_both _ _ _ _ _ R V). rewrite P in Q. destruct (proc_at f' (procs_of s')); simpl in Q; [tauto|]. auto.
  Qed.
  Lemma proc_at_some i s s' f f' : srel i s s' -> vr i f f' -> proc_at f (procs_of s) <> None -> proc_at f' (procs_of s') <> None.
  Proof.
    intros R V P. assert (Q := proc_at_both _ _ _ _ _ R V). destruct (proc_at f (procs_of s)); [|congruence].
    destruct (proc_at f' (procs_of s')); simpl in Q; [discriminate|tauto].
  Qed.

  (** *** Procedures provided by the system *)
  Lemma vr_inv_ptr i l v' : vr i (VPtr l) v' -> exists l', v' = VPtr l' /\ hp i l = Some l'.
  Proof. simpl. destruct (hp i l) eqn:Q; [|tauto]. eauto. Qed.

  Lemma sim_prim s f vs p q i s' f' vs' :
    proc_at f (procs_of s) = Some (PPrim p (List.length vs)) -> List.length vs <= 6 -> prim p vs (heap_of s) = Some q ->
    srel i s s' -> vr i f f' -> vsr i vs vs' ->
    exists q' j, proc_at f' (procs_of s') = Some (PPrim p (List.length vs')) /\ List.length vs' <= 6 /\
      prim p vs' (heap_of s') = Some q' /\ le i j /\ prel_result unb (hp j) q q' /\
      srel j (set_heap (presult_heap q) s) (set_heap (presult_heap q') s').
  Proof.
    intros P N E R F V. assert (LV := vsrel_length _ _ _ _ V).
    destruct (AF _ _ _ _ _ _ _ _ (sr_hinj _ _ _ _ _ _ _ R) (sr_heap _ _ _ _ _ _ _ R) V E) as [q' [h' [E' [PR [HR [I [X FR]]]]]]].
    destruct (heap_both _ _ _ _ _ _ _ _ _ _ R HR I X FR) as [L S1].
    - apply (AL _ _ _ _ E).
    - apply (AL _ _ _ _ E').
    - eexists _, _. rewrite LV. split; [eapply proc_at_sys; eauto; discriminate|]. split; auto. split; eauto.
  Qed.

  Lemma vsr_snoc_inv i xs x ys : vsr i (xs ++ [x]) ys -> exists xs' x', ys = xs' ++ [x'] /\ vsr i xs xs' /\ vr i x x'.
  Proof.
    intros H. apply Forall2_app_inv_l in H. destruct H as [xs' [z [A [B ->]]]]. inversion B; subst. inversion H3; subst. eauto 6.
  Qed.

  (** *** Inlined bodies *)
  Lemma inline_body t' r' s' xs b' vs' fm b'' r1' sb' x' s1' :
    select [(Formals xs None, b')] (List.length vs') = Some (fm, b'') -> bind_clause fm vs' r' s' = (r1', sb') ->
    evseq t' r1' sb' b'' x' s1' ->
    List.length vs' = List.length xs /\
    evseq t' (bind_env xs (List.length (cells_of s')) r') (add_cells vs' s') b' x' s1'.
  Proof.
    simpl. destruct (accepts (Formals xs None) (List.length vs')) eqn:A; [|discriminate]. intros S. injection S as <- <-.
    unfold accepts in A. simpl in A. apply Nat.eqb_eq in A. unfold bind_clause. simpl. intros B. injection B as <- <-. auto.
  Qed.
  Lemma add_nil s : add_cells [] s = s.
  Proof. destruct s. unfold add_cells. simpl. rewrite app_nil_r. auto. Qed.
  Lemma new_at p s v s1 : new_proc p s = (v, s1) -> proc_at v (procs_of s1) = Some p.
  Proof. intros E. injection E as <- <-. simpl. rewrite Nat.eqb_refl. auto. Qed.
  Lemma new_kept p s v s1 s2 : new_proc p s = (v, s1) -> keep s1 s2 -> proc_at v (procs_of s2) = Some p.
  Proof.
    intros E [K1 K2]. injection E as <- <-. simpl in *. rewrite K2; [|rewrite app_length; simpl; lia]. simpl. rewrite Nat.eqb_refl. auto.
  Qed.
  Lemma sys_kept v p s s2 : proc_at v (procs_of s) = Some p -> (forall l q, proc_ref l (procs_of s) = Some q -> l < List.length (heap_of s)) ->
    keep s s2 -> proc_at v (procs_of s2) = Some p.
  Proof. intros P B [K1 K2]. destruct v; try discriminate. simpl in *. rewrite K2; eauto. Qed.

  Lemma strong_conds t t' r es : strong t t' r es -> conds t t' r es.
  Proof. left. auto. Qed.
  Hint Resolve strong_conds : core.

  Lemma conds_literal t t' r c cls : strong t t' r [c] -> literal c = Some cls ->
    forall n fm b vs0 s0 r1 sb, select cls n = Some (fm, b) -> bind_clause fm vs0 r s0 = (r1, sb) -> conds false t' r1 b.
  Proof. intros S L n fm b vs0 s0 r1 sb A B. left. eapply strong_literal; eauto. Qed.

  Lemma lam_inv t r s fm b v s1 : eval1 t r s (ELam fm b) (inl v) s1 -> new_proc (PClo [(fm, b)] r) s = (v, s1).
  Proof. intros H. destruct (literal_inv prim t r s (ELam fm b) [(fm, b)] _ _ eq_refl H) as [w [Q N]]. injection Q as <-. auto. Qed.
  Lemma conds_lam t t' r fm b : strong t t' r [ELam fm b] ->
    forall n fm0 b0 vs0 s0 r1 sb, select [(fm, b)] n = Some (fm0, b0) -> bind_clause fm0 vs0 r s0 = (r1, sb) -> conds false t' r1 b0.
  Proof. intros S. apply (conds_literal t t' r (ELam fm b)); auto. Qed.

  Lemma args1_inv t r s a vs s1 : evargs t r s [a] (inl vs) s1 -> exists v, vs = [v] /\ eval t r s a (RVals [v]) s1.
  Proof.
    intros H. inversion H as [|? ? ? ? ? v s2 ws s3 A B| |]; subst. inversion B; subst. inversion A; subst. eauto.
  Qed.
  Lemma args1_err t r s a y s1 : evargs t r s [a] (inr y) s1 -> exists x, eval t r s a x s1 /\ ((exists n, y = ErrResults 1 n) \/ x = RErr y).
  Proof.
    intros H. inversion H as [| |? ? ? ? ? ? ? A|? ? ? ? ? ? ? ? ? A B]; subst; [|inversion B]. inversion A; subst; eauto 6.
  Qed.

  Lemma opts1 e e' : opt e e' -> opts [e] [e'].
  Proof. intros. constructor; auto. constructor. Qed.
  Hint Resolve opts1 : core.

  Lemma s_app t r s f es fv s1 vs s2 x s3 :
    eval1 t r s f (inl fv) s1 -> sim_eval1 t r s f (inl fv) s1 ->
    evargs t r s1 es (inl vs) s2 -> sim_evargs t r s1 es (inl vs) s2 ->
    sim_apply s2 fv vs x s3 -> sim_eval t r s (EApp f es) x s3.
  Proof.
    intros EF IHf EA IHa [IHap BS] t' r' s' e' i O C E R.
    assert (K := proj1 (proj2 (proj2 (proj2 (keeps prim AL)))) _ _ _ _ _ _ EA).
    assert (CK := conds_kids _ _ _ _ C). simpl in CK.
    inversion O; subst.
    - (* application *)
      destruct (IHf t' r' s' f' i) as [B|[y [s1' [j [EV [L [RR SR]]]]]]]; eauto using conds_in, in_eq; [discriminate|].
      destruct y as [fv'|y]; simpl in RR; [|tauto].
      destruct (IHa t' r' s1' es' j) as [B|[y [s2' [j2 [EV2 [L2 [RR2 SR2]]]]]]]; eauto using conds_tl, erel_mono; [discriminate|].
      destruct y as [vs'|y]; simpl in RR2; [|tauto].
      destruct (IHap s2' fv' vs' j2) as [B|[x' [s3' [j3 [EV3 [L3 [RR3 SR3]]]]]]]; eauto using vrel_le.
      right. exists x', s3', j3. split; [econstructor; eauto|]. eauto.
    - (* no argument *)
      assert (ST := strong_not_plain _ _ _ _ C eq_refl). apply strong_kids in ST. simpl in ST.
      assert (N := lam_inv _ _ _ _ _ _ _ EF). inversion EA; subst.
      assert (R1 := new_src _ _ _ _ _ _ _ _ _ _ R N).
      destruct (call_closure t' _ _ _ _ _ i s' _ [(Formals [] None, b')] _ r' [] BS (new_at _ _ _ _ N)) as [B|[fm [b'' [r1' [sb' [x' [s3' [j [S [A [B [EV [L [RR SR]]]]]]]]]]]]]];
        eauto using conds_lam.
      + constructor; auto; [constructor|constructor].
      + constructor.
      + right. destruct (inline_body _ _ _ _ _ _ _ _ _ _ _ _ S B EV) as [_ EV']. simpl in EV'. rewrite add_nil in EV'.
        exists x', s3', j. eauto using begin1_eval.
    - (* one argument *)
      assert (ST := strong_not_plain _ _ _ _ C eq_refl). apply strong_kids in ST. simpl in ST.
      assert (N := lam_inv _ _ _ _ _ _ _ EF).
      assert (R1 := new_src _ _ _ _ _ _ _ _ _ _ R N).
      destruct (IHa t' r' s' [a'] i) as [B|[y [s2' [j2 [EV2 [L2 [RR2 SR2]]]]]]]; eauto using conds_tl, erel_mono; [discriminate|].
      destruct y as [vs'|y]; simpl in RR2; [|tauto].
      destruct (call_closure t' _ _ _ _ _ j2 s2' _ [(Formals xs None, b')] _ r' vs' BS (new_kept _ _ _ _ _ N K)) as [B|[fm [b'' [r1' [sb' [x' [s3' [j [S [A [B [EV [L [RR SR]]]]]]]]]]]]]];
        eauto using conds_lam, erel_mono, strong_in, in_eq.
      + constructor; auto; [|constructor]. unfold fm_ids. simpl. rewrite app_nil_r. auto.
      + right. destruct (inline_body _ _ _ _ _ _ _ _ _ _ _ _ S B EV) as [LE EV'].
        apply args1_inv in EV2. destruct EV2 as [w [-> EV2]].
        exists x', s3', j. split; [|eauto]. eapply EvMvLet; eauto using begin1_eval.
    - (* several arguments *)
      assert (ST := strong_not_plain _ _ _ _ C eq_refl). apply strong_kids in ST. simpl in ST.
      assert (N := lam_inv _ _ _ _ _ _ _ EF).
      assert (R1 := new_src _ _ _ _ _ _ _ _ _ _ R N).
      destruct (IHa t' r' s' es' i) as [B|[y [s2' [j2 [EV2 [L2 [RR2 SR2]]]]]]]; eauto using conds_tl, erel_mono; [discriminate|].
      destruct y as [vs'|y]; simpl in RR2; [|tauto].
      destruct (call_closure t' _ _ _ _ _ j2 s2' _ [(Formals xs None, b')] _ r' vs' BS (new_kept _ _ _ _ _ N K)) as [B|[fm [b'' [r1' [sb' [x' [s3' [j [S [A [B [EV [L [RR SR]]]]]]]]]]]]]];
        eauto using conds_lam, erel_mono, strong_in, in_eq.
      + constructor; auto; [|constructor]. unfold fm_ids. simpl. rewrite app_nil_r. auto.
      + right. destruct (inline_body _ _ _ _ _ _ _ _ _ _ _ _ S B EV) as [LE EV'].
        exists x', s3', j. split; [|eauto].
        assert (W : vals = true) by auto. destruct (sr_values _ _ _ _ _ _ _ R W) as [l [G P]].
        eapply (EvMvLet prim t' r' s' _ _ _ vs' s2'); eauto using begin1_eval.
        eapply (EvApp prim t' r' s' _ _ (VPtr l)); [|eauto|].
        * constructor. apply EvGlobal; auto; [|discriminate]. apply E. auto.
        * apply ApValues. apply (sys_kept (VPtr l) _ s'); auto.
          -- apply (sr_below' _ _ _ _ _ _ _ R).
          -- apply (proj1 (proj2 (proj2 (proj2 (keeps prim AL)))) _ _ _ _ _ _ EV2).
  Qed.

  Lemma s_app_errf t r s f es y s1 :
    eval1 t r s f (inr y) s1 -> sim_eval1 t r s f (inr y) s1 -> sim_eval t r s (EApp f es) (RErr y) s1.
  Proof.
    intros EF IHf t' r' s' e' i O C E R.
    assert (CK := conds_kids _ _ _ _ C). simpl in CK.
    inversion O; subst; try (destruct (literal_inv prim t r s (ELam _ _) _ _ _ eq_refl EF) as [v [Q N]]; discriminate).
    destruct (IHf t' r' s' f' i) as [B|[z [s1' [j [EV [L [RR SR]]]]]]]; eauto using conds_in, in_eq.
    destruct z as [fv'|z]; simpl in RR; [tauto|]. right. exists (RErr z), s1', j. split; [apply EvAppErrF; auto|auto].
  Qed.
  Lemma s_app_erra t r s f es fv s1 y s2 :
    eval1 t r s f (inl fv) s1 -> sim_eval1 t r s f (inl fv) s1 ->
    sim_evargs t r s1 es (inr y) s2 -> sim_eval t r s (EApp f es) (RErr y) s2.
  Proof.
    intros EF IHf IHa t' r' s' e' i O C E R.
    assert (CK := conds_kids _ _ _ _ C). simpl in CK.
    inversion O; subst.
    - destruct (IHf t' r' s' f' i) as [B|[z [s1' [j [EV [L [RR SR]]]]]]]; eauto using conds_in, in_eq; [discriminate|].
      destruct z as [fv'|z]; simpl in RR; [|tauto].
      destruct (IHa t' r' s1' es' j) as [B|[z [s2' [j2 [EV2 [L2 [RR2 SR2]]]]]]]; eauto using conds_tl, erel_mono.
      destruct z as [vs'|z]; simpl in RR2; [tauto|]. right. exists (RErr z), s2', j2. split; [eapply EvAppErrA; eauto|eauto].
    - assert (N := lam_inv _ _ _ _ _ _ _ EF). assert (R1 := new_src _ _ _ _ _ _ _ _ _ _ R N).
      destruct (IHa t' r' s' [] i) as [B|[z [s2' [j2 [EV2 [L2 [RR2 SR2]]]]]]]; eauto using conds_tl, erel_mono; [constructor|].
      inversion EV2; subst. simpl in RR2. tauto.
    - assert (N := lam_inv _ _ _ _ _ _ _ EF). assert (R1 := new_src _ _ _ _ _ _ _ _ _ _ R N).
      destruct (IHa t' r' s' [a'] i) as [B|[z [s2' [j2 [EV2 [L2 [RR2 SR2]]]]]]]; eauto using conds_tl, erel_mono.
      destruct z as [vs'|z]; simpl in RR2; [tauto|]. apply args1_err in EV2. destruct EV2 as [x' [EV2 [[n ->]| ->]]].
      + destruct y; simpl in RR2; tauto.
      + right. exists (RErr z), s2', j2. split; [apply EvMvLetErr; auto|auto].
    - assert (N := lam_inv _ _ _ _ _ _ _ EF). assert (R1 := new_src _ _ _ _ _ _ _ _ _ _ R N).
      destruct (IHa t' r' s' es' i) as [B|[z [s2' [j2 [EV2 [L2 [RR2 SR2]]]]]]]; eauto using conds_tl, erel_mono.
      destruct z as [vs'|z]; simpl in RR2; [tauto|].
      right. exists (RErr z), s2', j2. split; [apply EvMvLetErr|auto].
      assert (W : vals = true) by auto. destruct (sr_values _ _ _ _ _ _ _ R W) as [l [G P]].
      eapply (EvAppErrA prim t' r' s' _ _ (VPtr l)); [|eauto].
      constructor. apply EvGlobal; auto; [|discriminate]. apply E. auto.
  Qed.

  (** A procedure created just to be called. *)
  Lemma fresh_call c c' cls t r s fv s1 s2 vs x s3 i j s0' r' v' s1' s2' vs' :
    opt c c' -> literal c = Some cls -> strong t false r [c] ->
    new_proc (PClo cls r) s = (fv, s1) -> keep s1 s2 -> body_sim s2 fv vs x s3 ->
    (forall cls', literal c' = Some cls' -> new_proc (PClo cls' r') s0' = (v', s1')) -> keep s1' s2' ->
    le i j -> erel i r r' -> srel j s2 s2' -> vsr j vs vs' ->
    count_error x = true \/
    exists x' s3' k, apply s2' v' vs' x' s3' /\ le j k /\ rrel unb (hp k) x x' /\ srel k s3 s3'.
  Proof.
    intros O L ST N K BS N' K' LE E R V.
    destruct (literal_both _ _ _ O L) as [cls' [L' OC]]. specialize (N' _ L').
    destruct (call_closure false _ _ _ _ _ j s2' _ cls' _ r' vs' BS (new_kept _ _ _ _ _ N K)) as [B|[fm [b'' [r1' [sb' [x' [s3' [k [S [A [B [EV [L2 [RR SR]]]]]]]]]]]]]];
      eauto using erel_mono.
    - intros. apply conds_false.
    - right. exists x', s3', k. split; [|auto]. eapply ApClo; eauto. eapply new_kept; eauto.
  Qed.

  Lemma s_mvcall t r s p c vs s1 fv s2 x s3 :
    eval t r s p (RVals vs) s1 -> sim_eval t r s p (RVals vs) s1 ->
    eval1 t r s1 c (inl fv) s2 -> sim_eval1 t r s1 c (inl fv) s2 ->
    sim_apply s2 fv vs x s3 -> sim_eval t r s (EMvCall p c) x s3.
  Proof.
    intros EP IHp EC IHc [IHap BS] t' r' s' e' i O C E R.
    assert (CK := conds_kids _ _ _ _ C). simpl in CK.
    assert (ST := strong_not_plain _ _ _ _ C eq_refl). apply strong_kids in ST. simpl in ST.
    assert (STc : strong t false r [c]) by (eapply strong_false, strong_in; eauto; simpl; auto).
    inversion O; subst.
    - destruct (IHp t' r' s' p' i) as [B|[z [s1' [j [EV [L [RR SR]]]]]]]; eauto using conds_in, in_eq; [discriminate|].
      destruct z as [vs'|z]; simpl in RR; [|tauto].
      destruct (IHc t' r' s1' c' j) as [B|[z [s2' [j2 [EV2 [L2 [RR2 SR2]]]]]]]; eauto using conds_tl, erel_mono; [discriminate|].
      destruct z as [fv'|z]; simpl in RR2; [|tauto].
      destruct (IHap s2' fv' vs' j2) as [B|[x' [s3' [j3 [EV3 [L3 [RR3 SR3]]]]]]]; eauto using vsrel_le.
      right. exists x', s3', j3. split; [|eauto]. eapply post_eval; eauto. eapply EvMvCall; eauto.
    - destruct (literal c) as [cls|] eqn:LI; [|congruence].
      destruct (literal_both c c' _ ltac:(assumption) LI) as [cls' [LI' OC]].
      destruct (literal_inv _ _ _ _ _ _ _ _ LI EC) as [w [Q N]]. injection Q as <-.
      destruct (new_proc (PClo cls' r') s') as [v' s0'] eqn:N'.
      assert (R0 := new_tgt _ _ _ _ _ _ _ _ _ _ R N').
      destruct (IHp t' r' s0' (EMvValues es') i) as [B|[z [s1' [j [EV [L [RR SR]]]]]]]; eauto using conds_in, in_eq; [constructor; auto|discriminate|].
      destruct z as [vs'|z]; simpl in RR; [|tauto].
      assert (SR' := new_src _ _ _ _ _ _ _ _ _ _ SR N).
      assert (KT := proj1 (keeps prim AL) _ _ _ _ _ _ EV).
      destruct (fresh_call c c' cls t r s1 fv s2 s2 vs x s3 i j s' r' v' s0' s1' vs') as [B|[x' [s3' [k [EV3 [L3 [RR3 SR3]]]]]]]; auto using keep_refl.
      + intros ? X. rewrite LI' in X. injection X as <-. auto.
      + right. exists x', s3', k. split; [|eauto]. inversion EV; subst. eapply EvApp; eauto using literal_eval.
    - destruct (literal c) as [cls|] eqn:LI; [|congruence].
      destruct (literal_both c c' _ ltac:(assumption) LI) as [cls' [LI' OC]].
      destruct (literal_inv _ _ _ _ _ _ _ _ LI EC) as [w [Q N]]. injection Q as <-.
      destruct (new_proc (PClo cls' r') s') as [v' s0'] eqn:N'.
      assert (R0 := new_tgt _ _ _ _ _ _ _ _ _ _ R N').
      destruct (IHp t' r' s0' e'0 i) as [B|[z [s1' [j [EV [L [RR SR]]]]]]]; eauto using conds_in, in_eq; [discriminate|].
      destruct z as [vs'|z]; simpl in RR; [|tauto].
      assert (SR' := new_src _ _ _ _ _ _ _ _ _ _ SR N).
      assert (KT := proj1 (keeps prim AL) _ _ _ _ _ _ EV).
      destruct (fresh_call c c' cls t r s1 fv s2 s2 vs x s3 i j s' r' v' s0' s1' vs') as [B|[x' [s3' [k [EV3 [L3 [RR3 SR3]]]]]]]; auto using keep_refl.
      + intros ? X. rewrite LI' in X. injection X as <-. auto.
      + right. exists x', s3', k. split; [|eauto].
        assert (exists v, vs = [v]) as [v ->] by (destruct p; try discriminate; inversion EP; subst; eauto).
        destruct vs' as [|v1' [|? ?]]; try (inversion RR; fail); try (inversion RR; subst; match goal with X : Forall2 _ [] (_ :: _) |- _ => inversion X end).
        eapply EvApp; eauto using literal_eval. eapply EaCons; [constructor; eauto|constructor].
    - assert (N := lam_inv _ _ _ _ _ _ _ EC).
      destruct (IHp t' r' s' e'0 i) as [B|[z [s1' [j [EV [L [RR SR]]]]]]]; eauto using conds_in, in_eq; [discriminate|].
      destruct z as [vs'|z]; simpl in RR; [|tauto].
      assert (SR' := new_src _ _ _ _ _ _ _ _ _ _ SR N).
      destruct (call_closure t' _ _ _ _ _ j s1' _ [(Formals xs None, b')] _ r' vs' BS (new_at _ _ _ _ N)) as [B|[fm [b'' [r1' [sb' [x' [s3' [k [S [A [B [EV3 [L3 [RR3 SR3]]]]]]]]]]]]]];
        eauto using erel_mono.
      + constructor; auto; [|constructor]. unfold fm_ids. simpl. rewrite app_nil_r. auto.
      + eapply conds_lam. eapply strong_in; eauto. simpl. auto.
      + right. destruct (inline_body _ _ _ _ _ _ _ _ _ _ _ _ S B EV3) as [LE EV'].
        exists x', s3', k. split; [|eauto]. eapply EvMvLet; eauto using begin1_eval.
  Qed.
  Lemma s_mvcall_errp t r s p c y s1 :
    eval t r s p (RErr y) s1 -> sim_eval t r s p (RErr y) s1 -> sim_eval t r s (EMvCall p c) (RErr y) s1.
  Proof.
    intros EP IHp t' r' s' e' i O C E R.
    assert (CK := conds_kids _ _ _ _ C). simpl in CK.
    inversion O; subst.
    - destruct (IHp t' r' s' p' i) as [B|[z [s1' [j [EV [L [RR SR]]]]]]]; eauto using conds_in, in_eq.
      destruct z as [vs'|z]; simpl in RR; [tauto|]. right. exists (RErr z), s1', j. split; [|auto].
      eapply post_eval; eauto. apply EvMvCallErrP. auto.
    - destruct (literal c) as [cls|] eqn:LI; [|congruence].
      destruct (literal_both c c' _ ltac:(assumption) LI) as [cls' [LI' OC]].
      destruct (new_proc (PClo cls' r') s') as [v' s0'] eqn:N'.
      assert (R0 := new_tgt _ _ _ _ _ _ _ _ _ _ R N').
      destruct (IHp t' r' s0' (EMvValues es') i) as [B|[z [s1' [j [EV [L [RR SR]]]]]]]; eauto using conds_in, in_eq; [constructor; auto|].
      destruct z as [vs'|z]; simpl in RR; [tauto|]. right. exists (RErr z), s1', j. split; [|auto].
      inversion EV; subst. eapply EvAppErrA; eauto using literal_eval.
    - destruct (literal c) as [cls|] eqn:LI; [|congruence].
      destruct (literal_both c c' _ ltac:(assumption) LI) as [cls' [LI' OC]].
      destruct (new_proc (PClo cls' r') s') as [v' s0'] eqn:N'.
      assert (R0 := new_tgt _ _ _ _ _ _ _ _ _ _ R N').
      destruct (IHp t' r' s0' e'0 i) as [B|[z [s1' [j [EV [L [RR SR]]]]]]]; eauto using conds_in, in_eq.
      destruct z as [vs'|z]; simpl in RR; [tauto|]. right. exists (RErr z), s1', j. split; [|auto].
      eapply EvAppErrA; eauto using literal_eval. apply EaErr. constructor. auto.
    - destruct (IHp t' r' s' e'0 i) as [B|[z [s1' [j [EV [L [RR SR]]]]]]]; eauto using conds_in, in_eq.
      destruct z as [vs'|z]; simpl in RR; [tauto|]. right. exists (RErr z), s1', j. split; [|auto].
      apply EvMvLetErr. auto.
  Qed.
  Lemma s_mvcall_errc t r s p c vs s1 y s2 :
    sim_eval t r s p (RVals vs) s1 -> eval1 t r s1 c (inr y) s2 -> sim_eval1 t r s1 c (inr y) s2 ->
    sim_eval t r s (EMvCall p c) (RErr y) s2.
  Proof.
    intros IHp EC IHc t' r' s' e' i O C E R.
    assert (CK := conds_kids _ _ _ _ C). simpl in CK.
    assert (X : literal c = None).
    { destruct (literal c) as [cls|] eqn:LI; auto. destruct (literal_inv _ _ _ _ _ _ _ _ LI EC) as [w [Q N]]. discriminate. }
    inversion O; subst; try congruence; try discriminate.
    destruct (IHp t' r' s' p' i) as [B|[z [s1' [j [EV [L [RR SR]]]]]]]; eauto using conds_in, in_eq; [discriminate|].
    destruct z as [vs'|z]; simpl in RR; [|tauto].
    destruct (IHc t' r' s1' c' j) as [B|[z [s2' [j2 [EV2 [L2 [RR2 SR2]]]]]]]; eauto using conds_tl, erel_mono.
    destruct z as [fv'|z]; simpl in RR2; [tauto|]. right. exists (RErr z), s2', j2. split; [|eauto 10].
    eapply post_eval; eauto. eapply EvMvCallErrC; eauto.
  Qed.

  Lemma s_cwv t r s p c pv0 s1 cv s2 vs s3 x s4 :
    eval1 t r s p (inl pv0) s1 -> sim_eval1 t r s p (inl pv0) s1 ->
    eval1 t r s1 c (inl cv) s2 -> sim_eval1 t r s1 c (inl cv) s2 ->
    apply s2 pv0 [] (RVals vs) s3 -> sim_apply s2 pv0 [] (RVals vs) s3 ->
    sim_apply s3 cv vs x s4 -> sim_eval t r s (ECwv p c) x s4.
  Proof.
    intros EP IHp EC IHc EA [IHa _] [IHb BS] t' r' s' e' i O C E R.
    assert (CK := conds_kids _ _ _ _ C). simpl in CK.
    assert (ST := strong_not_plain _ _ _ _ C eq_refl). apply strong_kids in ST. simpl in ST.
    assert (STc : strong t false r [c]) by (eapply strong_false, strong_in; eauto; simpl; auto).
    inversion O; subst.
    - destruct (IHp t' r' s' p' i) as [B|[z [s1' [j [EV [L [RR SR]]]]]]]; eauto using conds_in, in_eq; [discriminate|].
      destruct z as [pv'|z]; simpl in RR; [|tauto].
      destruct (IHc t' r' s1' c' j) as [B|[z [s2' [j2 [EV2 [L2 [RR2 SR2]]]]]]]; eauto using conds_tl, erel_mono; [discriminate|].
      destruct z as [cv'|z]; simpl in RR2; [|tauto].
      assert (V1 : vr j2 pv0 pv') by (eapply vrel_le; eauto).
      destruct (IHa s2' pv' [] j2) as [B|[z [s3' [j3 [EV3 [L3 [RR3 SR3]]]]]]]; eauto using vrel_le; [constructor|discriminate|].
      destruct z as [vs'|z]; simpl in RR3; [|tauto].
      assert (V2 : vr j3 cv cv') by (eapply vrel_le; eauto).
      destruct (IHb s3' cv' vs' j3) as [B|[x' [s4' [j4 [EV4 [L4 [RR4 SR4]]]]]]]; eauto.
      right. exists x', s4', j4. split; [eapply EvCwv; eauto|eauto 10].
    - destruct (literal c) as [cls|] eqn:LI; [|congruence].
      destruct (literal_both c c' _ ltac:(assumption) LI) as [cls' [LI' OC]].
      destruct (literal_inv _ _ _ _ _ _ _ _ LI EC) as [w [Q N]]. injection Q as <-.
      destruct (IHp t' r' s' p' i) as [B|[z [s1' [j [EV [L [RR SR]]]]]]]; eauto using conds_in, in_eq; [discriminate|].
      destruct z as [pv'|z]; simpl in RR; [|tauto].
      assert (SR' := new_src _ _ _ _ _ _ _ _ _ _ SR N).
      destruct (IHa s1' pv' [] j) as [B|[z [s3' [j3 [EV3 [L3 [RR3 SR3]]]]]]]; eauto using vrel_le; [constructor|discriminate|].
      destruct z as [vs'|z]; simpl in RR3; [|tauto].
      destruct (new_proc (PClo cls' r') s3') as [v' s0'] eqn:N'.
      assert (R0 := new_tgt _ _ _ _ _ _ _ _ _ _ SR3 N').
      destruct (fresh_call c c' cls t r s1 cv s2 s3 vs x s4 i j3 s3' r' v' s0' s0' vs') as [B|[x' [s4' [k [EV4 [L4 [RR4 SR4]]]]]]]; eauto using keep_refl.
      + eapply (proj2 (proj2 (proj2 (proj2 (proj2 (proj2 (keeps prim AL))))))); eauto.
      + intros ? X. rewrite LI' in X. injection X as <-. auto.
      + right. exists x', s4', k. split; [|eauto 10]. eapply EvMvCall; eauto using literal_eval.
        eapply EvApp; eauto. constructor.
  Qed.
  Lemma s_cwv_errp t r s p c y s1 :
    sim_eval1 t r s p (inr y) s1 -> sim_eval t r s (ECwv p c) (RErr y) s1.
  Proof.
    intros IHp t' r' s' e' i O C E R.
    assert (CK := conds_kids _ _ _ _ C). simpl in CK.
    inversion O; subst.
    - destruct (IHp t' r' s' p' i) as [B|[z [s1' [j [EV [L [RR SR]]]]]]]; eauto using conds_in, in_eq.
      destruct z as [pv'|z]; simpl in RR; [tauto|]. right. exists (RErr z), s1', j. split; [eapply EvCwvErrP; eauto|eauto].
    - destruct (IHp t' r' s' p' i) as [B|[z [s1' [j [EV [L [RR SR]]]]]]]; eauto using conds_in, in_eq.
      destruct z as [pv'|z]; simpl in RR; [tauto|]. right. exists (RErr z), s1', j. split; [|eauto 10].
      apply EvMvCallErrP. apply EvAppErrF. auto.
  Qed.
  Lemma s_cwv_errc t r s p c pv0 s1 y s2 :
    sim_eval1 t r s p (inl pv0) s1 -> eval1 t r s1 c (inr y) s2 -> sim_eval1 t r s1 c (inr y) s2 ->
    sim_eval t r s (ECwv p c) (RErr y) s2.
  Proof.
    intros IHp EC IHc t' r' s' e' i O C E R.
    assert (CK := conds_kids _ _ _ _ C). simpl in CK.
    inversion O; subst.
    - destruct (IHp t' r' s' p' i) as [B|[z [s1' [j [EV [L [RR SR]]]]]]]; eauto using conds_in, in_eq; [discriminate|].
      destruct z as [pv'|z]; simpl in RR; [|tauto].
      destruct (IHc t' r' s1' c' j) as [B|[z [s2' [j2 [EV2 [L2 [RR2 SR2]]]]]]]; eauto using conds_tl, erel_mono.
      destruct z as [cv'|z]; simpl in RR2; [tauto|]. right. exists (RErr z), s2', j2. split; [eapply EvCwvErrC; eauto|eauto].
    - destruct (literal c) as [cls|] eqn:LI; [|congruence].
      destruct (literal_inv _ _ _ _ _ _ _ _ LI EC) as [w [Q N]]. discriminate.
  Qed.
  Lemma s_cwv_erra t r s p c pv0 s1 cv s2 y s3 :
    sim_eval1 t r s p (inl pv0) s1 -> eval1 t r s1 c (inl cv) s2 -> sim_eval1 t r s1 c (inl cv) s2 ->
    sim_apply s2 pv0 [] (RErr y) s3 -> sim_eval t r s (ECwv p c) (RErr y) s3.
  Proof.
    intros IHp EC IHc [IHa _] t' r' s' e' i O C E R.
    assert (CK := conds_kids _ _ _ _ C). simpl in CK.
    inversion O; subst.
    - destruct (IHp t' r' s' p' i) as [B|[z [s1' [j [EV [L [RR SR]]]]]]]; eauto using conds_in, in_eq; [discriminate|].
      destruct z as [pv'|z]; simpl in RR; [|tauto].
      destruct (IHc t' r' s1' c' j) as [B|[z [s2' [j2 [EV2 [L2 [RR2 SR2]]]]]]]; eauto using conds_tl, erel_mono; [discriminate|].
      destruct z as [cv'|z]; simpl in RR2; [|tauto].
      assert (V1 : vr j2 pv0 pv') by (eapply vrel_le; eauto).
      destruct (IHa s2' pv' [] j2) as [B|[z [s3' [j3 [EV3 [L3 [RR3 SR3]]]]]]]; eauto using vrel_le; [constructor|].
      destruct z as [vs'|z]; simpl in RR3; [tauto|]. right. exists (RErr z), s3', j3. split; [eapply EvCwvErrA; eauto|eauto 10].
    - destruct (literal c) as [cls|] eqn:LI; [|congruence].
      destruct (literal_inv _ _ _ _ _ _ _ _ LI EC) as [w [Q N]]. injection Q as <-.
      destruct (IHp t' r' s' p' i) as [B|[z [s1' [j [EV [L [RR SR]]]]]]]; eauto using conds_in, in_eq; [discriminate|].
      destruct z as [pv'|z]; simpl in RR; [|tauto].
      assert (SR' := new_src _ _ _ _ _ _ _ _ _ _ SR N).
      destruct (IHa s1' pv' [] j) as [B|[z [s3' [j3 [EV3 [L3 [RR3 SR3]]]]]]]; eauto using vrel_le; [constructor|].
      destruct z as [vs'|z]; simpl in RR3; [tauto|]. right. exists (RErr z), s3', j3. split; [|eauto 10].
      apply EvMvCallErrP. eapply EvApp; eauto. constructor.
  Qed.

  Lemma s_values t r s es x s1 (y : list val + err) :
    x = match y with inl vs => RVals vs | inr z => RErr z end ->
    evargs t r s es y s1 -> sim_evargs t r s es y s1 -> sim_eval t r s (EValues es) x s1 /\ sim_eval t r s (EMvValues es) x s1.
  Proof.
    intros -> EA IH. split; intros t' r' s' e' i O C E R; assert (CK := conds_kids _ _ _ _ C); simpl in CK.
    - inversion O; subst.
      + destruct (IH t' r' s' es' i) as [B|[z [s1' [j [EV [L [RR SR]]]]]]]; auto; [left; destruct y; auto; discriminate|].
        right. exists (match z with inl vs => RVals vs | inr z => RErr z end), s1', j. split; [destruct z; constructor; auto|].
        split; auto. split; auto. destruct y, z; auto.
      + destruct (IH t' r' s' [e'] i) as [B|[z [s1' [j [EV [L [RR SR]]]]]]]; auto; [left; destruct y; auto; discriminate|].
        right. destruct z as [vs'|z].
        * apply args1_inv in EV. destruct EV as [v' [-> EV]]. exists (RVals [v']), s1', j. destruct y; simpl in RR; [|tauto]. auto.
        * apply args1_err in EV. destruct EV as [x' [EV [[n ->]| ->]]]; destruct y as [vs|y]; simpl in RR; try tauto.
          -- destruct y; simpl in RR; tauto.
          -- exists (RErr z), s1', j. auto.
      + destruct (IH t' r' s' es' i) as [B|[z [s1' [j [EV [L [RR SR]]]]]]]; auto; [left; destruct y; auto; discriminate|].
        right. exists (match z with inl vs => RVals vs | inr z => RErr z end), s1', j. split; [destruct z; constructor; auto|].
        split; auto. split; auto. destruct y, z; auto.
    - inversion O; subst.
      destruct (IH t' r' s' es' i) as [B|[z [s1' [j [EV [L [RR SR]]]]]]]; auto; [left; destruct y; auto; discriminate|].
      right. exists (match z with inl vs => RVals vs | inr z => RErr z end), s1', j. split; [destruct z; constructor; auto|].
      split; auto. split; auto. destruct y, z; auto.
  Qed.
  (** *** let-values and letrec-values *)
  Lemma cwv_run t' r' s' e' ts b va sa cb sb vs' s1' x s3 :
    new_proc (PClo [(Formals [] None, [e'])] r') s' = (va, sa) ->
    new_proc (PClo [(Formals ts None, b)] r') sa = (cb, sb) ->
    eval false r' sb e' (RVals vs') s1' -> List.length vs' = List.length ts ->
    evseq false (bind_env ts (List.length (cells_of s1')) r') (add_cells vs' s1') b x s3 ->
    eval t' r' s' (ECwv (ELam (Formals [] None) [e']) (ELam (Formals ts None) b)) x s3.
  Proof.
    intros N1 N2 EV LE ES. eapply (EvCwv prim t' r' s' _ _ _ _ _ _ vs' s1').
    - constructor. constructor. eauto.
    - constructor. constructor. eauto.
    - eapply ApClo; [eapply new_kept; [eauto|eapply keep_new; eauto]|reflexivity|reflexivity|].
      simpl. change (evseq false r' (add_cells [] sb) [e'] (RVals vs') s1'). rewrite add_nil. constructor. eauto.
    - eapply ApClo; [eapply new_kept; [eauto|eapply (proj1 (keeps prim AL)); eauto]| | |exact ES].
      + simpl. unfold accepts. simpl. rewrite LE, Nat.eqb_refl. reflexivity.
      + reflexivity.
  Qed.
  Lemma cwv_fail t' r' s' e' ts b va sa cb sb y s1' :
    new_proc (PClo [(Formals [] None, [e'])] r') s' = (va, sa) ->
    new_proc (PClo [(Formals ts None, b)] r') sa = (cb, sb) ->
    eval false r' sb e' (RErr y) s1' ->
    eval t' r' s' (ECwv (ELam (Formals [] None) [e']) (ELam (Formals ts None) b)) (RErr y) s1'.
  Proof.
    intros N1 N2 EV. eapply EvCwvErrA.
    - constructor. constructor. eauto.
    - constructor. constructor. eauto.
    - eapply ApClo; [eapply new_kept; [eauto|eapply keep_new; eauto]|reflexivity|reflexivity|].
      simpl. change (evseq false r' (add_cells [] sb) [e'] (RErr y) s1'). rewrite add_nil. constructor. eauto.
  Qed.

  Lemma tmps_ok_mono i j r' ts ws : le i j -> tmps_ok i r' ts ws -> tmps_ok j r' ts ws.
  Proof.
    intros L H. induction H as [|x w ts ws [l [w' [A [B C]]]] H IH]; constructor; auto. exists l, w'.
    split; auto. split; [apply L; auto|eapply vrel_le; eauto].
  Qed.
  Lemma tmps_ok_skip i r' ts ws xs n : tmps_ok i r' ts ws -> (forall y, In y xs -> In y ts -> False) -> tmps_ok i (bind_env xs n r') ts ws.
  Proof.
    intros H D. induction H as [|x w ts ws [l [w' [A [B C]]]] H IH]; constructor.
    - exists l, w'. split; auto. rewrite lookup_bind_env_not; auto. intros I. apply (D x); simpl; auto.
    - apply IH. intros y I J. apply (D y); simpl; auto.
  Qed.
  Lemma lookup_bind_nodup xs n r a x : NoDup xs -> nth_error xs a = Some x -> lookup_env x (bind_env xs n r) = Some (n + a).
  Proof.
    intros ND H. destruct (lookup_bind_env_in x xs n r) as [k [A B]]; [eapply nth_error_In; eauto|]. rewrite A. f_equal. f_equal.
    eapply (proj1 (NoDup_nth_error xs)); eauto; [apply nth_error_Some; congruence|congruence].
  Qed.
  Lemma Forall2_nth2 {A B} (P : A -> B -> Prop) xs ys :
    List.length xs = List.length ys ->
    (forall k x y, nth_error xs k = Some x -> nth_error ys k = Some y -> P x y) -> Forall2 P xs ys.
  Proof.
    revert ys. induction xs as [|x xs IH]; intros [|y ys] L H; try discriminate; constructor.
    - apply (H 0); auto.
    - apply IH; [simpl in L; lia|]. intros k a b ? ?. apply (H (S k)); auto.
  Qed.
  Lemma tmps_ok_new j r' ts ws ws' n :
    NoDup ts -> List.length ws = List.length ts -> vsr j ws ws' ->
    (forall k v, nth_error ws' k = Some v -> pv j (n + k) = Some v) -> tmps_ok j (bind_env ts n r') ts ws.
  Proof.
    intros ND L V P. apply Forall2_nth2; auto. intros k x w A B.
    destruct (vsrel_nth _ _ _ _ _ _ V B) as [w' [B' C]]. exists (n + k), w'. split; [apply lookup_bind_nodup; auto|]. auto.
  Qed.
  Lemma tmps_ok_app i r' ts1 ts2 ws1 ws2 : tmps_ok i r' ts1 ws1 -> tmps_ok i r' ts2 ws2 -> tmps_ok i r' (ts1 ++ ts2) (ws1 ++ ws2).
  Proof. apply Forall2_app. Qed.
  Lemma tmps_args i r' ts ws s s' tt : unb = false -> srel i s s' -> tmps_ok i r' ts ws ->
    exists ws', vsr i ws ws' /\ evargs tt r' s' (map EVar ts) (inl ws') s'.
  Proof.
    intros U R H. induction H as [|x w ts ws [l [w' [A [B C]]]] H IH]; [exists []; split; constructor|].
    destruct IH as [ws' [V EV]]. exists (w' :: ws'). split; [constructor; auto|]. simpl. eapply EaCons; eauto. constructor.
    destruct (sr_priv _ _ _ _ _ _ _ R _ _ B) as [P _]. eapply EvLocal; eauto.
    intros ->. rewrite U in C. destruct w; simpl in C; try discriminate; [destruct C; discriminate|].
    destruct (hp i l0); [discriminate|auto].
  Qed.

  (** One binding of let-values: the values are kept in new variables. *)
  Lemma bind_run t t' r s e vs s1 (xs : list ident) r' s' e' i ts b :
    sim_eval t r s e (RVals vs) s1 -> List.length vs = List.length xs -> opt e e' -> strong t t' r [e] ->
    erel i r r' -> srel i s s' -> List.length ts = List.length xs -> Forall tmpid ts -> NoDup ts ->
    exists r1' s1' j, le i j /\ erel j r r1' /\ srel j s1 s1' /\ tmps_ok j r1' ts vs /\
      (forall ys ws, tmps_ok i r' ys ws -> (forall y, In y ts -> In y ys -> False) -> tmps_ok j r1' ys ws) /\
      forall x s3, evseq false r1' s1' b x s3 ->
        eval t' r' s' (ECwv (ELam (Formals [] None) [e']) (ELam (Formals ts None) b)) x s3.
  Proof.
    intros IH LE O ST E R LT T ND.
    destruct (new_proc (PClo [(Formals [] None, [e'])] r') s') as [va sa] eqn:N1.
    destruct (new_proc (PClo [(Formals ts None, b)] r') sa) as [cb sb] eqn:N2.
    assert (R1 := new_tgt _ _ _ _ _ _ _ _ _ _ R N1). assert (R2 := new_tgt _ _ _ _ _ _ _ _ _ _ R1 N2).
    destruct (IH false r' sb e' i O) as [B|[z [s1' [j [EV [L [RR SR]]]]]]]; auto; [apply strong_conds; eapply strong_false; eauto|discriminate|].
    destruct z as [vs'|z]; simpl in RR; [|tauto]. assert (LV := vsrel_length _ _ _ _ RR).
    destruct (add_private _ _ _ _ _ _ _ vs' SR) as [k [L2 [HK [SR2 PV]]]].
    assert (X : le i k) by eauto.
    exists (bind_env ts (List.length (cells_of s1')) r'), (add_cells vs' s1'), k. split; auto. split; [|split; [auto|split; [|split]]].
    - apply erel_tmps; auto. eapply erel_mono; eauto.
    - eapply tmps_ok_new; eauto; [lia|]. rewrite HK. auto.
    - intros ys ws H D. apply tmps_ok_skip; auto. eapply tmps_ok_mono; eauto.
    - intros x s3 H. eapply cwv_run; eauto. lia.
  Qed.
  Lemma bind_fail t t' r s e y s1 r' s' e' i ts b :
    sim_eval t r s e (RErr y) s1 -> opt e e' -> strong t t' r [e] -> erel i r r' -> srel i s s' ->
    count_err y = true \/
    exists y' s1' j, eval t' r' s' (ECwv (ELam (Formals [] None) [e']) (ELam (Formals ts None) b)) (RErr y') s1' /\
      le i j /\ errrel unb (hp j) y y' /\ srel j s1 s1'.
  Proof.
    intros IH O ST E R.
    destruct (new_proc (PClo [(Formals [] None, [e'])] r') s') as [va sa] eqn:N1.
    destruct (new_proc (PClo [(Formals ts None, b)] r') sa) as [cb sb] eqn:N2.
    assert (R1 := new_tgt _ _ _ _ _ _ _ _ _ _ R N1). assert (R2 := new_tgt _ _ _ _ _ _ _ _ _ _ R1 N2).
    destruct (IH false r' sb e' i O) as [B|[z [s1' [j [EV [L [RR SR]]]]]]]; auto; [apply strong_conds; eapply strong_false; eauto|].
    destruct z as [vs'|z]; simpl in RR; [tauto|]. right. exists z, s1', j. split; auto. eapply cwv_fail; eauto.
  Qed.

  Lemma lens_inv xs e bs tss : lens ((xs, e) :: bs) tss -> exists ts tr, tss = ts :: tr /\ List.length ts = List.length xs /\ lens bs tr.
  Proof. intros H. inversion H; subst. eauto. Qed.
  Lemma optbs_inv xs e bs bs1 : optbs ((xs, e) :: bs) bs1 -> exists e' bs', bs1 = (xs, e') :: bs' /\ opt e e' /\ optbs bs bs'.
  Proof. intros H. inversion H; subst. eauto. Qed.
  Lemma strong_hd t t' r e es : strong t t' r (e :: es) -> strong t t' r [e].
  Proof. intros. eapply strong_in; eauto. simpl. auto. Qed.
  Lemma strong_tl t t' r e es : strong t t' r (e :: es) -> strong t t' r es.
  Proof. intros [H|[xs [H C]]]; [left; auto|right]. exists xs. simpl in H. apply andb_true_iff in H. tauto. Qed.
  Lemma NoDup_app_l {A} (a b : list A) : NoDup (a ++ b) -> NoDup a.
  Proof. induction a as [|x a IH]; intros H; [constructor|]. inversion H; subst. constructor; auto. intros I. apply H2. apply in_app_iff. auto. Qed.
  Lemma NoDup_app_r {A} (a b : list A) : NoDup (a ++ b) -> NoDup b.
  Proof. induction a as [|x a IH]; intros H; auto. inversion H; subst. auto. Qed.
  Lemma NoDup_app_disj {A} (a b : list A) : NoDup (a ++ b) -> forall x, In x a -> In x b -> False.
  Proof.
    induction a as [|y a IH]; intros H x I J; [destruct I|]. inversion H; subst. destruct I as [->|I]; eauto.
    apply H2. apply in_app_iff. auto.
  Qed.

  Lemma s_bnil t r s : sim_evbinds t r s [] (inl []) s.
  Proof.
    split; [|split; [discriminate|auto]]. intros t' r' s' i bs' tss ids tmps ws0 b' U O ST E R LN T ND D TM.
    inversion O; subst. inversion LN; subst. exists t', r', s', i. split; auto.
  Qed.
  Lemma s_bcons t r s ids0 e bs vs s1 x s2 :
    sim_eval t r s e (RVals vs) s1 -> List.length vs = List.length ids0 -> sim_evbinds t r s1 bs x s2 ->
    sim_evbinds t r s ((ids0, e) :: bs) (match x with inl ws => inl (vs ++ ws) | inr y => inr y end) s2.
  Proof.
    intros IHe LE [IHb [_ IH3]]. split; [|split; [|discriminate]].
    - intros t' r' s' i bs1 tss ids tmps ws0 b' U O ST E R LN T ND D TM.
      destruct (lens_inv _ _ _ _ LN) as [ts [tr [-> [LT LR]]]]. destruct (optbs_inv _ _ _ _ O) as [e' [bs' [-> [Oe Ob]]]].
      simpl in T, ND, D, ST. apply Forall_app in T. destruct T as [T1 T2].
      assert (DD := NoDup_app_disj _ _ ND).
      destruct (bind_run t t' r s e vs s1 ids0 r' s' e' i ts [letn bs' tr (ids0 ++ ids) (ts ++ tmps) b'])
        as [r1' [s1' [j [L [E1 [R1 [TK [TS RUN]]]]]]]]; eauto using strong_hd, NoDup_app_l.
      assert (P := IHb false r1' s1' j bs' tr (ids0 ++ ids) (ts ++ tmps) (vs ++ ws0) b' U Ob).
      assert (ST2 : strong t false r (map snd bs)) by (eapply strong_false, strong_tl; eauto).
      specialize (P ST2 E1 R1 LR T2 (NoDup_app_r _ _ ND)).
      assert (D2 : forall y, In y (List.concat tr) -> In y (ts ++ tmps) -> False).
      { intros y I J. apply in_app_iff in J. destruct J as [J|J]; eauto. apply (D y); auto. apply in_app_iff. auto. }
      assert (TK2 : tmps_ok j r1' (ts ++ tmps) (vs ++ ws0)).
      { apply tmps_ok_app; auto. apply TS; auto. intros y I J. apply (D y); auto. apply in_app_iff. auto. }
      specialize (P D2 TK2). destruct x as [ws|y].
      + destruct P as [tt [r2' [s2' [k [L2 [E2 [R2 [TK3 RUN2]]]]]]]].
        exists tt, r2', s2', k. split; [eauto|]. split; auto. split; auto. split.
        * simpl. rewrite <- LE. rewrite firstn_app, skipn_app, Nat.sub_diag, firstn_all, skipn_all. simpl. rewrite app_nil_r. auto.
        * intros x s3 H. simpl in H. apply RUN2 in H. simpl. apply RUN. constructor. auto.
      + destruct P as [P|[y' [s2' [k [EV [L2 [RR R2]]]]]]]; [left; auto|right]. exists y', s2', k.
        split; [|split; [eauto|auto]]. simpl. apply RUN. constructor. auto.
    - intros xs e0 Q. injection Q as <- <- ->. destruct (IH3 eq_refl) as [-> ->]. rewrite app_nil_r. auto.
  Qed.
  Lemma s_berr t r s ids0 e bs y s1 : sim_eval t r s e (RErr y) s1 -> sim_evbinds t r s ((ids0, e) :: bs) (inr y) s1.
  Proof.
    intros IHe. split; [|split; [|discriminate]].
    - intros t' r' s' i bs1 tss ids tmps ws0 b' U O ST E R LN T ND D TM.
      destruct (lens_inv _ _ _ _ LN) as [ts [tr [-> [LT LR]]]]. destruct (optbs_inv _ _ _ _ O) as [e' [bs' [-> [Oe Ob]]]].
      simpl. eapply bind_fail; eauto using strong_hd.
    - intros xs e0 Q. injection Q as <- <- ->. auto.
  Qed.
  Lemma s_bbad t r s ids0 e bs n m s1 : sim_evbinds t r s ((ids0, e) :: bs) (inr (ErrResults n m)) s1.
  Proof. split; [|split; [|discriminate]]; intros; left; auto. Qed.

  Lemma Forall2_length' {A B} {P : A -> B -> Prop} {xs ys} : Forall2 P xs ys -> List.length xs = List.length ys.
  Proof. induction 1; simpl; auto. Qed.

  (** *** The order of the variables of let-values *)
  Fixpoint revp {A} (ks : list nat) (l acc : list A) : list A :=
    match ks with [] => acc | k :: r => revp r (skipn k l) (firstn k l ++ acc) end.
  Definition sizes (bs : list (list ident * expr)) : list nat := map (fun b => List.length (fst b)) bs.
  Lemma revi_revp bs acc : revi bs acc = revp (sizes bs) (let_ids bs) acc.
  Proof.
    revert acc. induction bs as [|[xs e] bs IH]; intros acc; simpl; auto. unfold let_ids in *. simpl.
    rewrite skipn_app, firstn_app, Nat.sub_diag, firstn_all, skipn_all. simpl. rewrite app_nil_r. auto.
  Qed.
  Lemma revg_revp bs ws acc : revg bs ws acc = revp (sizes bs) ws acc.
  Proof. revert ws acc. induction bs as [|[xs e] bs IH]; intros ws acc; simpl; auto. Qed.
  Lemma sizes_sum bs : List.length (let_ids bs) = list_sum (sizes bs).
  Proof. induction bs as [|[xs e] bs IH]; simpl; auto. unfold let_ids in *. simpl. rewrite app_length, IH. auto. Qed.
  Lemma revp_perm {A} ks : forall l acc : list A, List.length l = list_sum ks -> Permutation (revp ks l acc) (l ++ acc).
  Proof.
    induction ks as [|k ks IH]; intros l acc L; simpl in *.
    - destruct l; [simpl; auto|discriminate].
    - rewrite IH by (rewrite skipn_length; lia). rewrite Permutation_app_swap_app, app_assoc, firstn_skipn. auto.
  Qed.
  Lemma revp_map {A B} (f : A -> B) ks : forall l acc, revp ks (map f l) (map f acc) = map f (revp ks l acc).
  Proof. induction ks as [|k ks IH]; intros l acc; simpl; auto. rewrite skipn_map, firstn_map, <- map_app. apply IH. Qed.
  Fixpoint pos (a : nat) (l : list nat) : nat := match l with [] => 0 | b :: r => if Nat.eqb a b then 0 else S (pos a r) end.
  Lemma pos_nth a l : In a l -> nth_error l (pos a l) = Some a.
  Proof. induction l as [|b l IH]; intros I; [destruct I|]. simpl. destruct (Nat.eqb_spec a b); [subst; auto|]. destruct I; [congruence|]. simpl. auto. Qed.
  Definition order (ks : list nat) (n : nat) : list nat := revp ks (seq 0 n) [].
  Lemma map_nth_seq {A} (l : list A) d : map (fun a => nth a l d) (seq 0 (List.length l)) = l.
  Proof.
    induction l as [|x l IH]; simpl; auto. f_equal. rewrite <- seq_shift, map_map. auto.
  Qed.
  Lemma order_nth {A} ks (l : list A) a x :
    List.length l = list_sum ks -> nth_error l a = Some x ->
    nth_error (revp ks l []) (pos a (order ks (List.length l))) = Some x.
  Proof.
    intros L H. assert (a < List.length l) by (apply nth_error_Some; congruence).
    rewrite <- (map_nth_seq l x) at 1. change (@nil A) with (map (fun a => nth a l x) []). rewrite revp_map. fold (order ks (List.length l)).
    rewrite nth_error_map, pos_nth.
    - simpl. f_equal. apply nth_error_nth. auto.
    - unfold order. eapply Permutation_in; [symmetry; apply revp_perm; rewrite seq_length; auto|]. rewrite app_nil_r. apply in_seq. lia.
  Qed.
  Definition placement (ks : list nat) (n : nat) : list nat := map (fun a => pos a (order ks n)) (seq 0 n).
  Lemma placement_nth ks n a : a < n -> nth_error (placement ks n) a = Some (pos a (order ks n)).
  Proof.
    intros H. unfold placement. rewrite nth_error_map, (nth_error_nth' _ 0) by (rewrite seq_length; auto). rewrite seq_nth by auto. auto.
  Qed.
  Lemma NoDup_map_on {A B} (f : A -> B) l : NoDup l -> (forall x y, In x l -> In y l -> f x = f y -> x = y) -> NoDup (map f l).
  Proof.
    induction 1 as [|x l N ND IH]; intros I; simpl; constructor.
    - intros J. apply in_map_iff in J. destruct J as [y [Q J]]. apply N. rewrite (I x y); simpl; auto.
    - apply IH. intros y z J K. apply I; simpl; auto.
  Qed.
  Lemma placement_NoDup ks n : n = list_sum ks -> NoDup (placement ks n).
  Proof.
    intros L. apply NoDup_map_on; [apply seq_NoDup|]. intros x y I J E. apply in_seq in I, J.
    assert (P : forall z, z < n -> nth_error (order ks n) (pos z (order ks n)) = Some z).
    { intros z H. apply pos_nth. eapply Permutation_in; [symmetry; apply revp_perm; rewrite seq_length; auto|]. rewrite app_nil_r. apply in_seq. lia. }
    assert (Px := P x ltac:(lia)). rewrite E, P in Px by lia. congruence.
  Qed.

  Lemma evbinds_length bs : forall t r s vs s1, evbinds t r s bs (inl vs) s1 -> List.length vs = List.length (let_ids bs).
  Proof.
    induction bs as [|[xs e] bs IH]; intros t r s vs s1 H; inversion H; subst; auto. unfold let_ids in *. simpl.
    rewrite !app_length. erewrite <- IH; eauto.
  Qed.
  Lemma lens_tmps bs : forall tss acc acc', lens bs tss -> List.length acc = List.length acc' ->
    List.length (revt tss acc) = List.length (revi bs acc').
  Proof.
    induction bs as [|[xs e] bs IH]; intros tss acc acc' H L; inversion H as [|? y ? l' HL HR]; subst; simpl; auto.
    simpl in HL. apply IH; auto. rewrite !app_length. lia.
  Qed.

  (** Entering the body of let-values. *)
  Lemma erel_let i s s' bs r r' :
    srel i s s' -> erel i r r' -> Forall okid (let_ids bs) -> NoDup (let_ids bs) ->
    let n := List.length (cells_of s) in let n' := List.length (cells_of s') in
    erel (link i n n' (placement (sizes bs) (List.length (let_ids bs)))) (bind_env (let_ids bs) n r) (bind_env (revi bs []) n' r').
  Proof.
    intros R [E V] O ND n n'.
    assert (PM : Permutation (revi bs []) (let_ids bs)).
    { rewrite revi_revp. rewrite (revp_perm (sizes bs) (let_ids bs) []) by apply sizes_sum. rewrite app_nil_r. auto. }
    rewrite Forall_forall in O. split.
    - intros x N. destruct (in_dec ident_dec x (let_ids bs)) as [I|I].
      + destruct (In_nth_error _ _ I) as [a A]. rewrite (lookup_bind_nodup _ n r _ _ ND A).
        assert (AL0 : a < List.length (let_ids bs)) by (apply nth_error_Some; congruence).
        assert (B := order_nth _ _ _ _ (sizes_sum bs) A). rewrite <- revi_revp in B.
        rewrite (lookup_bind_nodup _ n' r' _ _ (Permutation_NoDup (Permutation_sym PM) ND) B). simpl.
        destruct (Nat.ltb_spec (n + a) n); [lia|]. replace (n + a - n) with a by lia. rewrite placement_nth; auto.
      + rewrite !lookup_bind_env_not; auto; [|intros J; apply I; eapply Permutation_in; eauto].
        specialize (E x N). destruct (lookup_env x r) as [l|], (lookup_env x r'); simpl in *; auto.
        destruct (cl_lt _ _ _ _ _ _ _ _ _ R E). destruct (Nat.ltb_spec l n); auto. subst n. lia.
    - intros W. rewrite lookup_bind_env_not; auto. intros J. apply (Permutation_in _ PM) in J. destruct (O _ J) as [_ K]. apply K; auto.
  Qed.

  Lemma strong_let t t' r bs b n : strong t t' r [ELet bs b] -> strong t t' r (map snd bs) /\ strong t t' (bind_env (let_ids bs) n r) b.
  Proof.
    intros ST. split; [apply strong_kids in ST; auto|]. destruct ST as [H|[xs [H C]]]; [left; auto|right].
    exists (let_ids bs ++ xs). simpl in H. rewrite andb_true_r in H. apply andb_true_iff in H. split; [tauto|apply covers_bind; auto].
  Qed.
  Lemma strong_letrec t t' r bs b n : strong t t' r [ELetrec bs b] ->
    strong t t' (bind_env (let_ids bs) n r) (map snd bs) /\ strong t t' (bind_env (let_ids bs) n r) b.
  Proof.
    intros [H|[xs [H C]]]; [split; left; auto|]. simpl in H. rewrite andb_true_r in H. apply andb_true_iff in H. destruct H as [H1 H2].
    split; right; exists (let_ids bs ++ xs); (split; [|apply covers_bind; auto]); auto.
    rewrite forallb_forall in *. intros e I. apply in_map_iff in I. destruct I as [p [<- J]]. auto.
  Qed.

  Lemma s_let t r s bs body vs s1 x s2 :
    evbinds t r s bs (inl vs) s1 -> sim_evbinds t r s bs (inl vs) s1 ->
    sim_evseq t (bind_env (List.concat (map fst bs)) (List.length (cells_of s1)) r) (add_cells vs s1) body x s2 ->
    sim_eval t r s (ELet bs body) x s2.
  Proof.
    intros EB [IH1 [IH2 IH3]] IHb t' r' s' e' i O C E R. fold (let_ids bs) in IHb.
    assert (ST := strong_not_plain _ _ _ _ C eq_refl).
    destruct (strong_let _ _ _ _ _ (List.length (cells_of s1)) ST) as [STk STb].
    assert (STbf : strong t false (bind_env (let_ids bs) (List.length (cells_of s1)) r) body) by (eapply strong_false; eauto).
    assert (LV := evbinds_length _ _ _ _ _ _ EB).
    inversion O; subst.
    - destruct (IH3 eq_refl) as [Q ->]. injection Q as ->. simpl in IHb. rewrite add_nil in IHb.
      destruct (IHb t' r' s' b' i) as [B|[x' [s2' [j [EV [L [RR SR]]]]]]]; auto.
      right. exists x', s2', j. split; [constructor; auto|auto].
    - destruct (IH2 _ _ eq_refl) as [IHe LE].
      destruct (new_proc (PClo [(Formals [] None, [e'0])] r') s') as [va sa] eqn:N1.
      destruct (new_proc (PClo [(Formals xs None, b')] r') sa) as [cb sb] eqn:N2.
      assert (R1 := new_tgt _ _ _ _ _ _ _ _ _ _ R N1). assert (R2 := new_tgt _ _ _ _ _ _ _ _ _ _ R1 N2).
      destruct (IHe false r' sb e'0 i) as [B|[z [s1' [j [EV [L [RR SR]]]]]]]; auto; [apply strong_conds; eapply strong_false; eauto|discriminate|].
      destruct z as [vs'|z]; simpl in RR; [|tauto]. assert (LV' := vsrel_length _ _ _ _ RR).
      destruct (bind_list_both resv unb vals base j s1 s1' xs vs vs' r r') as [j2 [L2 [_ [E2 S2]]]]; eauto using erel_mono.
      unfold let_ids in IHb, STbf. simpl in IHb, STbf. rewrite app_nil_r in IHb, STbf.
      destruct (IHb false (bind_env xs (List.length (cells_of s1')) r') (add_cells vs' s1') b' j2) as [B|[x' [s2' [j3 [EV3 [L3 [RR3 SR3]]]]]]]; eauto.
      right. exists x', s2', j3. split; [|eauto]. eapply cwv_run; eauto. lia.
    - assert (P := IH1 t' r' s' i bs' tss [] [] [] b' H1 ltac:(assumption) STk E R ltac:(assumption) ltac:(assumption) ltac:(assumption)
        ltac:(intros ? ? []) ltac:(constructor)).
      destruct P as [tt [r2' [s2' [j [L [E2 [R2 [TK RUN]]]]]]]].
      destruct (new_proc (PClo [(Formals (revi bs []) None, b')] r2') s2') as [cv sc] eqn:N.
      assert (R3 := new_tgt _ _ _ _ _ _ _ _ _ _ R2 N).
      destruct (tmps_args _ _ _ _ _ _ tt H1 R3 TK) as [ws' [V EA]].
      assert (LW := vsrel_length _ _ _ _ V).
      assert (LT : List.length (revt tss []) = List.length (revi bs [])) by (apply lens_tmps; auto).
      assert (LG : List.length (revg bs vs []) = List.length (revi bs [])).
      { rewrite <- LT. symmetry. apply (Forall2_length' TK). }
      set (sg := placement (sizes bs) (List.length (let_ids bs))).
      set (j2 := link j (List.length (cells_of s1)) (List.length (cells_of sc)) sg).
      assert (L2 : le j j2) by (eapply link_le; eauto).
      assert (S2 : srel j2 (add_cells vs s1) (add_cells ws' sc)).
      { apply add_linked; auto; [apply placement_NoDup; apply sizes_sum|]. intros a b0 H.
        assert (a < List.length (let_ids bs)).
        { assert (a < List.length sg) by (apply nth_error_Some; congruence). unfold sg, placement in H0. rewrite map_length, seq_length in H0. auto. }
        unfold sg in H. rewrite placement_nth in H by auto. injection H as <-.
        destruct (nth_error vs a) as [v|] eqn:Q; [|apply nth_error_None in Q; lia].
        assert (B := order_nth (sizes bs) vs a v ltac:(rewrite LV; apply sizes_sum) Q). rewrite <- revg_revp, LV in B.
        destruct (vsrel_nth _ _ _ _ _ _ V B) as [v' [B' CV]]. exists v, v'. split; auto. split; auto. right. auto. }
      assert (E3 : erel j2 (bind_env (let_ids bs) (List.length (cells_of s1)) r) (bind_env (revi bs []) (List.length (cells_of sc)) r2'))
        by (apply erel_let; auto).
      destruct (IHb false (bind_env (revi bs []) (List.length (cells_of sc)) r2') (add_cells ws' sc) b' j2) as [B|[x' [s3' [j3 [EV3 [L3 [RR3 SR3]]]]]]]; eauto.
      right. exists x', s3', j3. split; [|eauto 10]. apply RUN. eapply EvApp.
      + constructor. constructor. eauto.
      + eauto.
      + eapply ApClo; [eapply new_at; eauto| | |exact EV3].
        * simpl. unfold accepts. simpl. rewrite LW, LG, Nat.eqb_refl. reflexivity.
        * reflexivity.
  Qed.
  Lemma s_leterr t r s bs body y s1 : sim_evbinds t r s bs (inr y) s1 -> sim_eval t r s (ELet bs body) (RErr y) s1.
  Proof.
    intros [IH1 [IH2 IH3]] t' r' s' e' i O C E R.
    assert (ST := strong_not_plain _ _ _ _ C eq_refl).
    destruct (strong_let _ _ _ _ _ (List.length (cells_of s1)) ST) as [STk STb].
    inversion O; subst.
    - destruct (IH3 eq_refl) as [Q _]. discriminate.
    - destruct (IH2 _ _ eq_refl) as [B|IHe]; [left; auto|].
      destruct (bind_fail t t' r s e y s1 r' s' e'0 i xs b') as [B|[y' [s1' [j [EV [L [RR SR]]]]]]]; auto.
      right. exists (RErr y'), s1', j. auto.
    - assert (P := IH1 t' r' s' i bs' tss [] [] [] b' H1 ltac:(assumption) STk E R ltac:(assumption) ltac:(assumption) ltac:(assumption)
        ltac:(intros ? ? []) ltac:(constructor)).
      destruct P as [B|[y' [s1' [j [EV [L [RR SR]]]]]]]; [left; auto|right]. exists (RErr y'), s1', j. auto.
  Qed.

  (** *** letrec-values *)
  Lemma es_cons t r s e l vs s1 x s2 : l <> [] -> eval t r s e (RVals vs) s1 -> evseq t r s1 l x s2 -> evseq t r s (e :: l) x s2.
  Proof. destruct l; [congruence|]. intros. econstructor; eauto. Qed.
  Lemma es_err t r s e l y s1 : l <> [] -> eval t r s e (RErr y) s1 -> evseq t r s (e :: l) (RErr y) s1.
  Proof. destruct l; [congruence|]. intros. constructor; auto. Qed.
  Lemma sets_run r r1' j : forall xs ts vs k s s',
    unb = false -> srel j s s' -> erel j r r1' -> Forall okid xs ->
    (forall a x, nth_error xs a = Some x -> lookup_env x r = Some (k + a)) ->
    tmps_ok j r1' ts vs -> List.length vs = List.length xs -> xs <> [] ->
    exists s2', evseq false r1' s' (map (fun p => ESet (fst p) (EVar (snd p))) (combine xs ts)) (RVals [VVoid]) s2' /\
                srel j (set_cells (seq k (List.length xs)) vs s) s2'.
  Proof.
    induction xs as [|x xs IH]; intros ts vs k s s' U R E O K TK LE NE; [congruence|].
    destruct vs as [|v vs]; [discriminate|]. inversion TK as [|t0 ? ts0 ? [l [w' [A [B CC]]]] TK0]; subst.
    inversion O as [|? ? Ox Or]; subst. assert (LX := K 0 x eq_refl). rewrite Nat.add_0_r in LX.
    assert (EX := proj1 E x (proj1 Ox)). rewrite LX in EX. destruct (lookup_env x r1') as [l'|] eqn:LX'; simpl in EX; [|tauto].
    destruct (cl_lt _ _ _ _ _ _ _ _ _ R EX) as [_ LT].
    assert (EV : eval false r1' s' (ESet x (EVar t0)) (RVals [VVoid]) (set_cell l' w' s')).
    { eapply EvSetLocal; eauto. destruct (sr_priv _ _ _ _ _ _ _ R _ _ B) as [P _]. eapply EvLocal; eauto.
      intros ->. rewrite U in CC. destruct v; simpl in CC; try discriminate; [destruct CC; discriminate|]. destruct (hp j l0); [discriminate|auto]. }
    assert (R1 : srel j (set_cell k v s) (set_cell l' w' s')) by (apply set_cell_both; auto; right; auto).
    destruct xs as [|x2 xs].
    - exists (set_cell l' w' s'). destruct vs; [|discriminate]. split; [simpl; destruct ts0; constructor; auto|simpl; auto].
    - destruct (IH ts0 vs (S k) _ _ U R1 E Or) as [s2' [ES SR]]; auto; [|discriminate|].
      + intros a y H. rewrite (K (S a) y H). f_equal. lia.
      + exists s2'. split; auto. simpl. simpl in ES. destruct ts0 as [|t1 ts0]; [inversion TK0; subst; discriminate|].
        simpl in *. eapply es_cons; eauto. discriminate.
  Qed.

  Lemma s_rnil t r s k : sim_evrec t r s k [] None s.
  Proof.
    split; [|auto]. intros t' r' s' i bs' tss rst U O ST E R LN T ND OK K NE.
    inversion O; subst. inversion LN; subst. exists s', i. split; auto.
  Qed.
  Lemma recsets_app_ne bs tss rst : rst <> [] -> recsets bs tss ++ rst <> [].
  Proof. intros N Q. apply app_eq_nil in Q. tauto. Qed.
  Lemma s_rcons t r s k ids e bs vs s1 o s2 :
    sim_eval t r s e (RVals vs) s1 -> List.length vs = List.length ids ->
    sim_evrec t r (set_cells (seq k (List.length ids)) vs s1) (k + List.length ids) bs o s2 ->
    sim_evrec t r s k ((ids, e) :: bs) o s2.
  Proof.
    intros IHe LE [IH _]. split; [|discriminate]. intros t' r' s' i bs1 tss rst U O ST E R LN T ND OK K NE.
    destruct (lens_inv _ _ _ _ LN) as [ts [tr [-> [LT LR]]]]. destruct (optbs_inv _ _ _ _ O) as [e' [bs' [-> [Oe Ob]]]].
    simpl in T, ND, ST. apply Forall_app in T. destruct T as [T1 T2].
    unfold let_ids in OK, K. simpl in OK, K. fold (let_ids bs) in OK, K. apply Forall_app in OK. destruct OK as [OK1 OK2].
    destruct (bind_run t t' r s e vs s1 ids r' s' e' i ts (sets ids ts)) as [r1' [s1' [j [L [E1 [R1 [TK [_ RUN]]]]]]]]; eauto using strong_hd, NoDup_app_l.
    assert (X : exists ws s3', evseq false r1' s1' (sets ids ts) (RVals ws) s3' /\ srel j (set_cells (seq k (List.length ids)) vs s1) s3').
    { destruct ids as [|x ids].
      - exists [], s1'. simpl. split; auto. repeat constructor.
      - destruct (sets_run r r1' j (x :: ids) ts vs k s1 s1') as [s3' [ES SR]]; auto; [|discriminate|eauto].
        intros a y H. apply K. rewrite nth_error_app1; auto. apply nth_error_Some. congruence. }
    destruct X as [ws [s3' [ES SR]]]. apply RUN in ES.
    assert (P := IH t' r' s3' j bs' tr rst U Ob (strong_tl _ _ _ _ _ ST) (erel_mono _ _ _ _ _ _ L E) SR LR T2 (NoDup_app_r _ _ ND) OK2).
    assert (K2 : forall a x, nth_error (let_ids bs) a = Some x -> lookup_env x r = Some (k + List.length ids + a)).
    { intros a y H. rewrite <- Nat.add_assoc. apply K. rewrite nth_error_app2 by lia. rewrite <- H. f_equal. lia. }
    specialize (P K2 NE). destruct o as [y|].
    - destruct P as [P|[y' [s2' [j2 [EV [L2 [RR R2]]]]]]]; [left; auto|right]. exists y', s2', j2. split; [|split; [eauto|auto]].
      simpl. eapply es_cons; eauto using recsets_app_ne.
    - destruct P as [s2' [j2 [L2 [R2 RUN2]]]]. exists s2', j2. split; [eauto|]. split; auto.
      intros x s4 H. simpl. eapply es_cons; eauto using recsets_app_ne.
  Qed.
  Lemma s_rbad t r s k ids e bs n m s1 : sim_evrec t r s k ((ids, e) :: bs) (Some (ErrResults n m)) s1.
  Proof. split; [|discriminate]. intros. left. auto. Qed.
  Lemma s_rerr t r s k ids e bs y s1 : sim_eval t r s e (RErr y) s1 -> sim_evrec t r s k ((ids, e) :: bs) (Some y) s1.
  Proof.
    intros IHe. split; [|discriminate]. intros t' r' s' i bs1 tss rst U O ST E R LN T ND OK K NE.
    destruct (lens_inv _ _ _ _ LN) as [ts [tr [-> [LT LR]]]]. destruct (optbs_inv _ _ _ _ O) as [e' [bs' [-> [Oe Ob]]]].
    destruct (bind_fail t t' r s e y s1 r' s' e' i ts (sets ids ts)) as [B|[y' [s1' [j [EV [L [RR SR]]]]]]]; eauto using strong_hd.
    right. exists y', s1', j. split; auto. simpl. eapply es_err; eauto using recsets_app_ne.
  Qed.

  Lemma evargs_unbound t r s k : evargs t r s (repeat EUnbound k) (inl (repeat VUnbound k)) s.
  Proof. induction k; simpl; [constructor|]. eapply EaCons; eauto. constructor. constructor. Qed.
  (** Entering letrec-values. *)
  Lemma letrec_enter i s s' ids r r' : srel i s s' -> erel i r r' -> Forall okid ids ->
    exists j, le i j /\ erel j (bind_env ids (List.length (cells_of s)) r) (bind_env ids (List.length (cells_of s')) r') /\
      srel j (add_cells (repeat VUnbound (List.length ids)) s) (add_cells (repeat VUnbound (List.length ids)) s').
  Proof.
    intros R E O. exists (link i (List.length (cells_of s)) (List.length (cells_of s')) (seq 0 (List.length ids))).
    split; [eapply link_le; eauto|]. split.
    - apply erel_bind; auto. intros l H. destruct (cl i l) eqn:Q; [|congruence]. apply (cl_lt _ _ _ _ _ _ _ _ _ R Q).
    - apply add_linked; auto using seq_NoDup. intros a b H.
      assert (a < List.length ids) by (rewrite <- (seq_length (List.length ids) 0); apply nth_error_Some; congruence).
      rewrite (nth_error_nth' _ 0) in H by (rewrite seq_length; auto). rewrite seq_nth in H by auto. injection H as <-.
      exists VUnbound, VUnbound. rewrite nth_error_repeat by auto. split; auto. split; auto. left. auto.
  Qed.
  Lemma opts_ne b b' : opts b b' -> b <> [] -> b' <> [].
  Proof. intros O N. destruct O; [congruence|discriminate]. Qed.

  Lemma s_letrec t r s bs body k r1 o s1 x s2 :
    k = List.length (cells_of s) -> r1 = bind_env (List.concat (map fst bs)) k r ->
    sim_evrec t r1 (add_cells (repeat VUnbound (List.length (List.concat (map fst bs)))) s) k bs o s1 ->
    match o with None => sim_evseq t r1 s1 body x s2 | Some y => x = RErr y /\ s2 = s1 end ->
    sim_eval t r s (ELetrec bs body) x s2.
  Proof.
    intros -> -> IH IHb t' r' s' e' i O C E R. fold (let_ids bs) in IH, IHb.
    assert (ST := strong_not_plain _ _ _ _ C eq_refl).
    destruct (strong_letrec _ _ _ _ _ (List.length (cells_of s)) ST) as [STk STb].
    inversion O; subst.
    - destruct IH as [_ IH]. simpl in IH. rewrite add_nil in IH. destruct (IH eq_refl) as [-> ->]. simpl in IHb.
      destruct (IHb t' r' s' b' i) as [B|[x' [s2' [j [EV [L [RR SR]]]]]]]; auto.
      right. exists x', s2', j. split; [constructor; auto|auto].
    - destruct IH as [IH _].
      set (n := List.length (let_ids bs)) in *. set (e0 := EValues (repeat EUnbound n)) in *.
      destruct (new_proc (PClo [(Formals [] None, [e0])] r') s') as [va sa] eqn:N1.
      destruct (new_proc (PClo [(Formals (let_ids bs) None, recsets bs' tss ++ b')] r') sa) as [cb sb] eqn:N2.
      assert (R1 := new_tgt _ _ _ _ _ _ _ _ _ _ R N1). assert (R2 := new_tgt _ _ _ _ _ _ _ _ _ _ R1 N2).
      assert (EV0 : eval false r' sb e0 (RVals (repeat VUnbound n)) sb) by (constructor; apply evargs_unbound).
      destruct (letrec_enter i s sb (let_ids bs) r r') as [j [L [E1 R3]]]; auto. fold n in R3.
      assert (STkf : strong t false (bind_env (let_ids bs) (List.length (cells_of s)) r) (map snd bs)) by (eapply strong_false; eauto).
      assert (STbf : strong t false (bind_env (let_ids bs) (List.length (cells_of s)) r) body) by (eapply strong_false; eauto).
      assert (NB : b' <> []) by (eapply opts_ne; eauto).
      assert (K : forall a x, nth_error (let_ids bs) a = Some x ->
                  lookup_env x (bind_env (let_ids bs) (List.length (cells_of s)) r) = Some (List.length (cells_of s) + a))
        by (intros; apply lookup_bind_nodup; auto).
      assert (P := IH false (bind_env (let_ids bs) (List.length (cells_of sb)) r') (add_cells (repeat VUnbound n) sb) j bs' tss b').
      repeat (match type of P with ?A -> _ => specialize (P ltac:(assumption)) end).
      destruct o as [y|].
      + destruct IHb as [-> ->]. destruct P as [P|[y' [s2' [j2 [EV [L2 [RR SR]]]]]]]; [left; auto|right].
        exists (RErr y'), s2', j2. split; [|split; [eauto|auto]]. eapply cwv_run; eauto. rewrite repeat_length. auto.
      + destruct P as [s2' [j2 [L2 [SR RUN]]]].
        destruct (IHb false (bind_env (let_ids bs) (List.length (cells_of sb)) r') s2' b' j2) as [B|[x' [s3' [j3 [EV3 [L3 [RR3 SR3]]]]]]]; eauto using erel_mono.
        right. exists x', s3', j3. split; [|split; [eauto|auto]]. eapply cwv_run; eauto. rewrite repeat_length. auto.
  Qed.

  (** *** All forms *)
  Lemma lit_vr i s s' v : srel i s s' -> lit base v -> vr i v v.
  Proof.
    intros R. destruct v; simpl; auto; try tauto. intros L. rewrite (sr_base _ _ _ _ _ _ _ R _ L). auto.
  Qed.
  Lemma vr_true i v v' : vr i v v' -> v <> VFalse -> v' <> VFalse.
  Proof. destruct v; simpl; intros H N; try (subst; auto; discriminate); [destruct H; subst; discriminate|]. destruct (hp i l); [subst; discriminate|tauto]. Qed.
  Lemma vr_bound i v v' : vr i v v' -> v <> VUnbound -> v' <> VUnbound.
  Proof. destruct v; simpl; intros H N; try (subst; auto; discriminate); try congruence. destruct (hp i l); [subst; discriminate|tauto]. Qed.
  Lemma cv_bound i v v' : cvrel unb i v v' -> v <> VUnbound -> vr i v v' /\ v' <> VUnbound.
  Proof. intros [[A B]|H] N; [congruence|]. split; auto. eapply vr_bound; eauto. Qed.
  Lemma cv_unbound i v' : cvrel unb i VUnbound v' -> v' = VUnbound.
  Proof. intros [[A B]|[A B]]; auto. Qed.
  Lemma vsr1 i v v' : vr i v v' -> vsr i [v] [v'].
  Proof. repeat constructor. auto. Qed.
  Lemma vsr1_inv i v vs' : vsr i [v] vs' -> exists v', vs' = [v'] /\ vr i v v'.
  Proof. intros H. inversion H as [|? ? ? ? A B]; subst. inversion B; subst. eauto. Qed.
  Lemma set_local t t' r x e : conds t t' r [ESet x e] -> t = t' \/ lookup_env x r <> None.
  Proof. intros [[[-> ->]|[ys [H C]]]|[H _]]; auto. right. simpl in H. rewrite andb_true_r in H. apply andb_true_iff in H. destruct H as [H _].
    apply C. apply memb_In. auto. Qed.

  Lemma s_var t r s x (y : res) :
    eval t r s (EVar x) y s -> sim_eval t r s (EVar x) y s.
  Proof.
    intros EV t' r' s' e' i O C E R. inversion O; subst. assert (EX := proj1 E _ ltac:(eassumption)). right.
    inversion EV; subst.
    - match goal with H : lookup_env x r = Some _ |- _ => rewrite H in EX end. destruct (lookup_env x r') as [l'|] eqn:Q; simpl in EX; [|tauto].
      destruct (sr_cells _ _ _ _ _ _ _ R _ _ EX) as [w [w' [A [B D]]]]. assert (w = v) by congruence. subst w.
      destruct (cv_bound _ _ _ D ltac:(assumption)) as [V N]. exists (RVals [w']), s', i. split; [eapply EvLocal; eauto|]. split; auto. split; auto. apply vsr1; auto.
    - match goal with H : lookup_env x r = Some _ |- _ => rewrite H in EX end. destruct (lookup_env x r') as [l'|] eqn:Q; simpl in EX; [|tauto].
      destruct (sr_cells _ _ _ _ _ _ _ R _ _ EX) as [w [w' [A [B D]]]]. assert (w = VUnbound) by congruence. subst w.
      apply cv_unbound in D. subst w'. exists (RErr (ErrInit x)), s', i. split; [eapply EvLocalInit; eauto|]. split; auto. split; simpl; auto.
    - match goal with H : lookup_env x r = None |- _ => rewrite H in EX end. destruct (lookup_env x r') as [l'|] eqn:Q; simpl in EX; [tauto|].
      assert (G := sr_glob _ _ _ _ _ _ _ R x). match goal with H : glob_ref x (glob_of s) = Some v |- _ => rewrite H in G end.
      destruct (glob_ref x (glob_of s')) as [w'|] eqn:Q2; simpl in G; [|tauto].
      exists (RVals [w']), s', i. split; [eapply EvGlobal; eauto using vr_bound|]. split; auto. split; auto. apply vsr1; auto.
    - match goal with H : lookup_env x r = None |- _ => rewrite H in EX end. destruct (lookup_env x r') as [l'|] eqn:Q; simpl in EX; [tauto|].
      assert (G := sr_glob _ _ _ _ _ _ _ R x). exists (RErr (ErrInit x)), s', i. split; [|split; auto; split; simpl; auto].
      apply EvGlobalInit; auto. match goal with H : _ \/ _ |- _ => destruct H as [H|H]; rewrite H in G end.
      + left. destruct (glob_ref x (glob_of s')); simpl in G; [tauto|auto].
      + right. destruct (glob_ref x (glob_of s')); simpl in G; [|tauto]. destruct G; subst; auto.
  Qed.

  Lemma s_define t r s ids e vs s1 : sim_eval t r s e (RVals vs) s1 -> List.length vs = List.length ids ->
    sim_eval t r s (EDefine ids e) (RVals [VVoid]) (set_globs ids vs s1).
  Proof.
    intros IH LE t' r' s' e' i O C E R. inversion O; subst. assert (CK := conds_kids _ _ _ _ C). simpl in CK.
    destruct (IH t' r' s' e'0 i) as [B|[z [s1' [j [EV [L [RR SR]]]]]]]; auto; try discriminate. destruct z as [vs'|z]; simpl in RR; [|tauto].
    assert (LV := vsrel_length _ _ _ _ RR). right. exists (RVals [VVoid]), (set_globs ids vs' s1'), j.
    split; [apply EvDefine; auto; congruence|]. split; auto. split; [apply vsr1; reflexivity|]. apply set_globs_both; auto.
  Qed.
  Lemma s_set t r s x e v s1 s2 (y : val) :
    sim_eval t r s e (RVals [v]) s1 ->
    (exists l, lookup_env x r = Some l /\ y = VVoid /\ s2 = set_cell l v s1) \/
    (lookup_env x r = None /\ t = true /\ y = v /\ glob_ref x (glob_of s1) <> None /\ s2 = set_glob x v s1) \/
    (lookup_env x r = None /\ t = false /\ y = VVoid /\ s2 = set_glob x v s1) ->
    sim_eval t r s (ESet x e) (RVals [y]) s2.
  Proof.
    intros IH H t' r' s' e' i O C E R. inversion O; subst. assert (CK := conds_kids _ _ _ _ C). simpl in CK.
    assert (LO := set_local _ _ _ _ _ C).
    destruct (IH t' r' s' e'0 i) as [B|[z [s1' [j [EV [L [RR SR]]]]]]]; auto; try discriminate. destruct z as [vs'|z]; simpl in RR; [|tauto].
    apply vsr1_inv in RR. destruct RR as [v' [-> V]]. right.
    match goal with K : okid x |- _ => assert (OK := K) end. assert (EX := proj1 E _ (proj1 OK)).
    destruct H as [[l [LX [-> ->]]]|[[LX [-> [-> [GX ->]]]]|[LX [-> [-> ->]]]]]; rewrite LX in EX; destruct (lookup_env x r') as [l'|] eqn:Q; simpl in EX; try tauto.
    - assert (EX' : cl j l = Some l') by (apply L; auto). destruct (cl_lt _ _ _ _ _ _ _ _ _ SR EX').
      exists (RVals [VVoid]), (set_cell l' v' s1'), j. split; [eapply EvSetLocal; eauto|]. split; auto. split; [apply vsr1; reflexivity|].
      apply set_cell_both; auto. right. auto.
    - destruct LO as [<-|LO]; [|congruence]. assert (G := sr_glob _ _ _ _ _ _ _ SR x).
      destruct (glob_ref x (glob_of s1)) as [w|]; [|congruence]. destruct (glob_ref x (glob_of s1')) as [w'|] eqn:G'; simpl in G; [|tauto].
      exists (RVals [v']), (set_glob x v' s1'), j. split; [eapply EvSetGlobal; eauto|]. split; auto. split; [apply vsr1; auto|].
      apply set_glob_both; auto.
    - destruct LO as [<-|LO]; [|congruence].
      exists (RVals [VVoid]), (set_glob x v' s1'), j. split; [eapply EvSetGlobalIn; eauto|]. split; auto. split; [apply vsr1; reflexivity|].
      apply set_glob_both; auto.
  Qed.
  Lemma s_lam t r s e cls v s1 : literal e = Some cls -> new_proc (PClo cls r) s = (v, s1) -> sim_eval t r s e (RVals [v]) s1.
  Proof.
    intros LI N t' r' s' e' i O C E R. right. destruct (literal_both _ _ _ O LI) as [cls' [LI' OC]].
    destruct (new_proc (PClo cls' r') s') as [v' s1'] eqn:N'.
    assert (PR : prel i (PClo cls r) (PClo cls' r')) by (constructor; auto).
    destruct (new_both _ _ _ _ _ _ _ _ _ _ _ _ _ R PR N N') as [j [L [SR V]]].
    exists (RVals [v']), s1', j. split; [|split; [auto|split; [apply vsr1; auto|auto]]].
    assert (X := literal_eval prim t' r' s' e' cls' v' s1' LI' N'). inversion X; subst. auto.
  Qed.
  Lemma s_begin t r s es x s1 : sim_evseq t r s es x s1 -> sim_eval t r s (EBegin es) x s1.
  Proof.
    intros IH t' r' s' e' i O C E R. inversion O; subst. assert (CK := conds_kids _ _ _ _ C). simpl in CK.
    destruct (IH t' r' s' es' i) as [B|[x' [s1' [j [EV [L [RR SR]]]]]]]; auto.
    right. exists x', s1', j. split; [constructor; auto|auto].
  Qed.
  Lemma s_if t r s a b c v s1 x s2 :
    sim_eval t r s a (RVals [v]) s1 ->
    (v <> VFalse /\ sim_eval t r s1 b x s2) \/ (v = VFalse /\ sim_eval t r s1 c x s2) -> sim_eval t r s (EIf a b c) x s2.
  Proof.
    intros IH H t' r' s' e' i O C E R. inversion O; subst. assert (CK := conds_kids _ _ _ _ C). simpl in CK.
    destruct (IH t' r' s' a' i) as [B|[z [s1' [j [EV [L [RR SR]]]]]]]; auto; [eapply conds_in; eauto; simpl; auto|..]; try discriminate.
    destruct z as [vs'|z]; simpl in RR; [|tauto]. apply vsr1_inv in RR. destruct RR as [v' [-> V]].
    destruct H as [[NF IH2]|[-> IH2]].
    - destruct (IH2 t' r' s1' b' j) as [B|[x' [s2' [j2 [EV2 [L2 [RR2 SR2]]]]]]]; eauto using erel_mono; [eapply conds_in; eauto; simpl; auto|].
      right. exists x', s2', j2. split; [eapply EvIfTrue; eauto using vr_true|eauto].
    - destruct (IH2 t' r' s1' c' j) as [B|[x' [s2' [j2 [EV2 [L2 [RR2 SR2]]]]]]]; eauto using erel_mono; [eapply conds_in; eauto; simpl; auto|].
      simpl in V. subst v'. right. exists x', s2', j2. split; [eapply EvIfFalse; eauto|eauto].
  Qed.
  Lemma s_mvlet t r s e xs body vs s1 x s2 :
    sim_eval t r s e (RVals vs) s1 -> List.length vs = List.length xs ->
    sim_eval t (bind_env xs (List.length (cells_of s1)) r) (add_cells vs s1) body x s2 ->
    sim_eval t r s (EMvLet e (Formals xs None) body) x s2.
  Proof.
    intros IH LE IHb t' r' s' e' i O C E R. inversion O; subst. assert (CK := conds_kids _ _ _ _ C). simpl in CK.
    assert (ST := strong_not_plain _ _ _ _ C eq_refl).
    destruct (IH t' r' s' e'0 i) as [B|[z [s1' [j [EV [L [RR SR]]]]]]]; auto; try discriminate.
    destruct z as [vs'|z]; simpl in RR; [|tauto]. assert (LV := vsrel_length _ _ _ _ RR).
    destruct (bind_list_both resv unb vals base j s1 s1' xs vs vs' r r') as [j2 [L2 [_ [E2 S2]]]]; eauto using erel_mono.
    destruct (IHb t' (bind_env xs (List.length (cells_of s1')) r') (add_cells vs' s1') b' j2) as [B|[x' [s2' [j3 [EV3 [L3 [RR3 SR3]]]]]]]; auto.
    - left. destruct ST as [H|[ys [H CO]]]; [left; auto|right]. exists (xs ++ ys). split; [|apply covers_bind; auto].
      simpl in H. rewrite andb_true_r in H. apply andb_true_iff in H. destruct H as [_ H]. unfold fm_ids in H. simpl in H. rewrite app_nil_r in H. simpl. rewrite H. auto.
    - right. exists x', s2', j3. split; [|eauto]. eapply EvMvLet; eauto. congruence.
  Qed.
  (** An error in the first part of a form. *)
  Lemma s_first t r s e y s1 f (F : expr -> expr) :
    (forall e', opt (F e) e' -> exists e1 G, e' = G e1 /\ opt e e1 /\
       forall t r s y s1, eval t r s e1 (RErr y) s1 -> eval t r s (G e1) (RErr y) s1) ->
    (forall t t' r, conds t t' r [F e] -> conds t t' r [e]) -> f = F e ->
    sim_eval t r s e (RErr y) s1 -> sim_eval t r s f (RErr y) s1.
  Proof.
    intros H HC -> IH t' r' s' e' i O C E R. destruct (H _ O) as [e1 [G [-> [O1 K]]]].
    destruct (IH t' r' s' e1 i) as [B|[z [s1' [j [EV [L [RR SR]]]]]]]; auto.
    destruct z as [vs'|z]; simpl in RR; [tauto|]. right. exists (RErr z), s1', j. split; auto.
  Qed.
  Lemma s_es_cons t r s e e2 es vs s1 x s2 :
    sim_eval t r s e (RVals vs) s1 -> sim_evseq t r s1 (e2 :: es) x s2 -> sim_evseq t r s (e :: e2 :: es) x s2.
  Proof.
    intros IH IHr t' r' s' es1 i O C E R. inversion O; subst.
    destruct (IH t' r' s' e' i) as [B|[z [s1' [j [EV [L [RR SR]]]]]]]; auto; [eapply conds_in; eauto; simpl; auto|..]; try discriminate.
    destruct z as [vs'|z]; simpl in RR; [|tauto].
    destruct (IHr t' r' s1' es' j) as [B|[x' [s2' [j2 [EV2 [L2 [RR2 SR2]]]]]]]; eauto using erel_mono, conds_tl.
    right. exists x', s2', j2. split; [|eauto]. eapply es_cons; eauto. eapply opts_ne; eauto. discriminate.
  Qed.
  Lemma s_es_err t r s e e2 es y s1 : sim_eval t r s e (RErr y) s1 -> sim_evseq t r s (e :: e2 :: es) (RErr y) s1.
  Proof.
    intros IH t' r' s' es1 i O C E R. inversion O; subst.
    destruct (IH t' r' s' e' i) as [B|[z [s1' [j [EV [L [RR SR]]]]]]]; auto; [eapply conds_in; eauto; simpl; auto|].
    destruct z as [vs'|z]; simpl in RR; [tauto|]. right. exists (RErr z), s1', j. split; [|auto]. eapply es_err; eauto. eapply opts_ne; eauto. discriminate.
  Qed.
  Lemma s_ea t r s e es v s1 (y : list val + err) s2 :
    sim_eval1 t r s e (inl v) s1 -> sim_evargs t r s1 es y s2 ->
    sim_evargs t r s (e :: es) (match y with inl vs => inl (v :: vs) | inr z => inr z end) s2.
  Proof.
    intros IH IHr t' r' s' es1 i O C E R. inversion O; subst.
    destruct (IH t' r' s' e' i) as [B|[z [s1' [j [EV [L [RR SR]]]]]]]; auto; [eapply conds_in; eauto; simpl; auto|..]; try discriminate.
    destruct z as [v'|z]; simpl in RR; [|tauto].
    destruct (IHr t' r' s1' es' j) as [B|[z [s2' [j2 [EV2 [L2 [RR2 SR2]]]]]]]; eauto using erel_mono, conds_tl; [left; destruct y; auto; discriminate|].
    right. exists (match z with inl vs => inl (v' :: vs) | inr z => inr z end), s2', j2. split; [|split; [eauto|split; auto]].
    - destruct z; [eapply EaCons; eauto|eapply EaErrRest; eauto].
    - destruct y, z; simpl in *; auto; try tauto. constructor; auto. eapply vrel_le; eauto.
  Qed.
  Lemma s_ea_err t r s e es y s1 : sim_eval1 t r s e (inr y) s1 -> sim_evargs t r s (e :: es) (inr y) s1.
  Proof.
    intros IH t' r' s' es1 i O C E R. inversion O; subst.
    destruct (IH t' r' s' e' i) as [B|[z [s1' [j [EV [L [RR SR]]]]]]]; auto; [eapply conds_in; eauto; simpl; auto|].
    destruct z as [v'|z]; simpl in RR; [tauto|]. right. exists (inr z), s1', j. split; [apply EaErr; auto|auto].
  Qed.
  Lemma s_e1 t r s e x s1 (y : val + err) :
    x = match y with inl v => RVals [v] | inr z => RErr z end -> sim_eval t r s e x s1 -> sim_eval1 t r s e y s1.
  Proof.
    intros -> IH t' r' s' e' i O C E R.
    destruct (IH t' r' s' e' i) as [B|[z [s1' [j [EV [L [RR SR]]]]]]]; auto; [left; destruct y; auto; discriminate|].
    right. destruct y as [v|y], z as [vs'|z]; simpl in RR; try tauto.
    - apply vsr1_inv in RR. destruct RR as [v' [-> V]]. exists (inl v'), s1', j. split; [constructor; auto|auto].
    - exists (inr z), s1', j. split; [apply E1Err; auto|auto].
  Qed.

  (** Calls of procedures provided by the system. *)
  Lemma s_sys s f vs x s1 :
    (forall cls r, proc_at f (procs_of s) <> Some (PClo cls r)) ->
    (forall s' f' vs' i, srel i s s' -> vr i f f' -> vsr i vs vs' ->
      count_error x = true \/
      exists x' s1' j, apply s' f' vs' x' s1' /\ le i j /\ rrel unb (hp j) x x' /\ srel j s1 s1') ->
    sim_apply s f vs x s1.
  Proof. intros N H. split; auto. intros cls r P. destruct (N _ _ P). Qed.
  Lemma s_count s f vs n s1 : sim_apply s f vs (RErr (ErrArity f n)) s1.
  Proof. split; [|intros ? ? ?]; intros; left; auto. Qed.

  Lemma first_set x e : forall e', opt (ESet x e) e' -> exists e1 G, e' = G e1 /\ opt e e1 /\
    forall t r s y s1, eval t r s e1 (RErr y) s1 -> eval t r s (G e1) (RErr y) s1.
  Proof. intros e' O. inversion O; subst. exists e'0, (ESet x). split; auto. split; auto. intros. constructor. auto. Qed.
  Lemma first_define ids e : forall e', opt (EDefine ids e) e' -> exists e1 G, e' = G e1 /\ opt e e1 /\
    forall t r s y s1, eval t r s e1 (RErr y) s1 -> eval t r s (G e1) (RErr y) s1.
  Proof. intros e' O. inversion O; subst. exists e'0, (EDefine ids). split; auto. split; auto. intros. constructor. auto. Qed.
  Lemma first_if e b c : forall e', opt (EIf e b c) e' -> exists e1 G, e' = G e1 /\ opt e e1 /\
    forall t r s y s1, eval t r s e1 (RErr y) s1 -> eval t r s (G e1) (RErr y) s1.
  Proof. intros e' O. inversion O; subst. exists a', (fun a => EIf a b' c'). split; auto. split; auto. intros. apply EvIfErr. auto. Qed.
  Lemma first_mvlet e xs b : forall e', opt (EMvLet e (Formals xs None) b) e' -> exists e1 G, e' = G e1 /\ opt e e1 /\
    forall t r s y s1, eval t r s e1 (RErr y) s1 -> eval t r s (G e1) (RErr y) s1.
  Proof. intros e' O. inversion O; subst. exists e'0, (fun a => EMvLet a (Formals xs None) b'). split; auto. split; auto. intros. apply EvMvLetErr. auto. Qed.
  Lemma conds_kid t t' r e k : In k (kids e) -> conds t t' r [e] -> conds t t' r [k].
  Proof. intros I C. eapply conds_in; [apply conds_kids; eauto|auto]. Qed.

  Theorem simulation :
    (forall t r s e x s1, eval t r s e x s1 -> sim_eval t r s e x s1) /\
    (forall t r s es x s1, evseq t r s es x s1 -> sim_evseq t r s es x s1) /\
    (forall t r s e x s1, eval1 t r s e x s1 -> sim_eval1 t r s e x s1) /\
    (forall t r s es x s1, evargs t r s es x s1 -> sim_evargs t r s es x s1) /\
    (forall t r s bs x s1, evbinds t r s bs x s1 -> sim_evbinds t r s bs x s1) /\
    (forall t r s k bs o s1, evrec t r s k bs o s1 -> sim_evrec t r s k bs o s1) /\
    (forall s f vs x s1, apply s f vs x s1 -> sim_apply s f vs x s1).
  Proof.
    apply (eval_min_all prim); intros.
    - intros t' r' s' e' i O C E R. inversion O; subst. right. exists (RVals [v]), s', i. split; [constructor|]. split; auto. split; auto. apply vsr1. eapply lit_vr; eauto.
    - intros t' r' s' e' i O C E R. assert (unb = true /\ e' = EUnbound) as [U ->] by (inversion O; auto). right. exists (RVals [VUnbound]), s', i. split; [constructor|]. split; auto. split; auto. apply vsr1. simpl. auto.
    - apply s_var. eapply EvLocal; eauto.
    - apply s_var. eapply EvLocalInit; eauto.
    - apply s_var. eapply EvGlobal; eauto.
    - apply s_var. eapply EvGlobalInit; eauto.
    - eapply s_define; eauto.
    - intros ? ? ? ? ? ? ? ? ?. left. auto.
    - eapply (s_first t r s e x s1 _ (EDefine ids)); eauto using first_define; intros; try (eapply conds_kid; eauto; simpl; auto; fail).
    - eapply s_set; eauto.
    - eapply s_set; eauto. right. left. repeat split; auto. congruence.
    - eapply s_set; eauto. right. right. auto.
    - eapply (s_first t r s e y s1 _ (ESet x)); eauto using first_set; intros; try (eapply conds_kid; eauto; simpl; auto; fail).
    - eapply s_lam; eauto. reflexivity.
    - eapply s_lam; eauto. destruct cls; [congruence|reflexivity].
    - apply s_begin; auto.
    - eapply s_if; eauto.
    - eapply s_if; eauto.
    - eapply (s_first t r s a y s1 _ (fun a => EIf a b c)); eauto using first_if; intros; try (eapply conds_kid; eauto; simpl; auto; fail).
    - eapply s_app; eauto.
    - eapply s_app_errf; eauto.
    - eapply s_app_erra; eauto.
    - eapply s_mvcall; eauto.
    - eapply s_mvcall_errp; eauto.
    - eapply s_mvcall_errc; eauto.
    - eapply s_mvlet; eauto.
    - intros ? ? ? ? ? ? ? ? ?. left. auto.
    - eapply (s_first t r s e y s1 _ (fun a => EMvLet a (Formals xs None) body)); eauto using first_mvlet; intros; try (eapply conds_kid; eauto; simpl; auto; fail).
    - eapply (s_values _ _ _ _ _ _ (inl vs)); eauto.
    - eapply (s_values _ _ _ _ _ _ (inr y)); eauto.
    - eapply (s_values _ _ _ _ _ _ (inl vs)); eauto.
    - eapply (s_values _ _ _ _ _ _ (inr y)); eauto.
    - eapply s_cwv; eauto.
    - eapply s_cwv_errp; eauto.
    - eapply s_cwv_errc; eauto.
    - eapply s_cwv_erra; eauto.
    - eapply s_let; eauto.
    - eapply s_leterr; eauto.
    - eapply (s_letrec t r s bs body _ _ None); eauto.
    - eapply (s_letrec t r s bs body _ _ (Some y)); eauto.
    (* sequences *)
    - intros t' r' s' es' i O C E R. inversion O; subst. right. exists (RVals [VVoid]), s', i. split; [constructor|]. split; auto. split; auto. apply vsr1. reflexivity.
    - intros t' r' s' es' i O C E R. inversion O as [|? e1 ? es1 O1 O2]; subst. inversion O2; subst.
      destruct (H0 t' r' s' e1 i) as [B|[x' [s1' [j [EV [L [RR SR]]]]]]]; auto. right. exists x', s1', j. split; [constructor; auto|auto].
    - eapply s_es_cons; eauto.
    - eapply s_es_err; eauto.
    - eapply (s_e1 _ _ _ _ _ _ (inl v)); eauto.
    - intros ? ? ? ? ? ? ? ? ?. left. auto.
    - eapply (s_e1 _ _ _ _ _ _ (inr y)); eauto.
    - intros t' r' s' es' i O C E R. inversion O; subst. right. exists (inl []), s', i. split; [constructor|]. split; auto. split; auto. constructor.
    - eapply (s_ea _ _ _ _ _ _ _ (inl vs)); eauto.
    - eapply s_ea_err; eauto.
    - eapply (s_ea _ _ _ _ _ _ _ (inr y)); eauto.
    - apply s_bnil.
    - eapply (s_bcons _ _ _ _ _ _ _ _ (inl ws)); eauto.
    - eapply (s_bcons _ _ _ _ _ _ _ _ (inr y)); eauto.
    - apply s_bbad.
    - apply s_berr; auto.
    - apply s_rnil.
    - eapply s_rcons; eauto.
    - apply s_rbad.
    - apply s_rerr; auto.
    (* procedures *)
    - assert (BS : body_sim s f vs x s2).
      { intros cls0 r0 P. right. rewrite H in P. injection P as <- <-. eauto 8. }
      split; auto. intros s' f' vs' i R F V.
      assert (PB := proc_at_both _ _ _ _ _ R F). rewrite H in PB. destruct (proc_at f' (procs_of s')) as [p'|] eqn:P'; simpl in PB; [|tauto].
      inversion PB as [? cls' ? r' OC ER|]; subst; [|exfalso; eapply H4; reflexivity].
      destruct (call_closure false _ _ _ _ _ i s' cls cls' r r' vs' BS H R OC ER V) as [B|[fm' [b' [r1' [sb' [x' [s1' [j [S [A [B [EV [L [RR SR]]]]]]]]]]]]]].
      + intros. apply conds_false.
      + left. auto.
      + right. exists x', s1', j. split; [eapply ApClo; eauto|auto].
    - apply s_count.
    - apply s_sys; [congruence|]. intros s' f' vs' i R F V. right.
      destruct (sim_prim _ _ _ _ _ _ _ _ _ H H0 H1 R F V) as [q' [j [A [B [D [L [PR SR]]]]]]].
      destruct q' as [v' h'|]; simpl in PR; [|tauto]. exists (RVals [v']), (set_heap h' s'), j. split; [eapply ApPrim; eauto|]. split; auto. split; auto. apply vsr1. auto.
    - apply s_sys; [congruence|]. intros s' f' vs' i R F V. right.
      destruct (sim_prim _ _ _ _ _ _ _ _ _ H H0 H1 R F V) as [q' [j [A [B [D [L [PR SR]]]]]]].
      destruct q' as [|e' h']; simpl in PR; [tauto|]. exists (RErr (ErrPrim e')), (set_heap h' s'), j. split; [eapply ApPrimErr; eauto|]. split; auto.
    - apply s_count.
    - apply s_sys; [congruence|]. intros s' f' vs' i R F V. right. exists (RVals vs'), s', i.
      split; [apply ApValues; eapply proc_at_sys; eauto; discriminate|auto].
    - apply s_sys; [congruence|]. intros s' f' vs' i R F V. right. apply vsr1_inv in V. destruct V as [v' [-> V]]. exists (RVals [v']), s', i.
      split; [apply ApIdentity; eapply proc_at_sys; eauto; discriminate|]. split; auto. split; auto. apply vsr1; auto.
    - apply s_count.
    - apply s_sys; [congruence|]. intros s' f' vs' i R F V. right. inversion V; subst. exists (RVals [VVoid]), s', i.
      split; [apply ApVoid; eapply proc_at_sys; eauto; discriminate|]. split; auto. split; auto. apply vsr1; reflexivity.
    - apply s_count.
    - apply s_sys; [congruence|]. intros s' f' vs' i R F V. inversion V as [|? g' ? vs1 G V1]; subst.
      destruct (vsr_snoc_inv _ _ _ _ V1) as [mid' [l' [-> [VM VL]]]].
      destruct (list_at_rel _ _ _ _ _ _ _ (sr_heap _ _ _ _ _ _ _ R) VL H1) as [el' [LA VE]].
      destruct H3 as [H3 _]. destruct (H3 s' g' (mid' ++ el') i R G (vsrel_app _ _ _ _ _ _ VM VE)) as [B|[x' [s1' [j [EV [L [RR SR]]]]]]]; [left; auto|right].
      exists x', s1', j. split; [|auto]. eapply ApApply; eauto; [eapply proc_at_sys; eauto; discriminate|eapply proc_at_some; eauto].
    - apply s_count.
    - apply s_sys; [congruence|]. intros s' f' vs' i R F V. inversion V as [|? g' ? vs1 G V1]; subst. right. exists (RErr (ErrApply g')), s', i.
      split; [|split; auto]. apply ApApplyProc; [eapply proc_at_sys; eauto; discriminate|eapply proc_at_none; eauto|]. intros ->. inversion V1; subst; congruence.
    - apply s_sys; [congruence|]. intros s' f' vs' i R F V. inversion V as [|? g' ? vs1 G V1]; subst.
      destruct (vsr_snoc_inv _ _ _ _ V1) as [mid' [l' [-> [VM VL]]]]. right. exists (RErr (ErrApply l')), s', i.
      split; [|split; auto]. apply ApApplyList; [eapply proc_at_sys; eauto; discriminate|eapply proc_at_some; eauto|].
      eapply improper_rel; eauto. apply R.
    - apply s_sys; [congruence|]. intros s' f' vs' i R F V. right. exists (RErr (ErrNotProc f')), s', i.
      split; [|split; auto]. apply ApNotProc. eapply proc_at_none; eauto.
  Qed.
End Sim.
