(** The interpreter of Diverge.v: what it yields is what Sem.v says, it yields
    everything Sem.v says, and when it goes on the calls nest to any depth. *)
From Coq Require Import ZArith NArith Bool Ascii String List Arith Lia.
From Verif Require Import Base Heap HeapM Ast Sem Vm SimLemmas SimProofs SimThm OptProofs EvalRun EvalFun Diverge.
Import ListNotations.
Local Open Scope list_scope.

Lemma bindo_got {A B} (o : out A) (k : A -> store -> out B) b s :
  bindo o k = Got b s -> exists a s1, o = Got a s1 /\ k a s1 = Got b s.
Proof. destruct o; simpl; intros; try discriminate. eauto. Qed.
Lemma bindo_going {A B} (o : out A) (k : A -> store -> out B) :
  bindo o k = Going -> o = Going \/ exists a s1, o = Got a s1 /\ k a s1 = Going.
Proof. destruct o; simpl; intros; try discriminate; eauto. Qed.
Ltac bg Q := apply bindo_got in Q; let o := fresh "o" in let s := fresh "z" in let Q1 := fresh "Q" in destruct Q as [o [s [Q1 Q]]].
Ltac gg Q := apply bindo_going in Q; let o := fresh "o" in let s := fresh "z" in let Q1 := fresh "Q" in destruct Q as [Q|[o [s [Q1 Q]]]].

Section P.
  Variable prim : N -> list val -> heap -> option presult.
  Notation eval := (eval prim).
  Notation evseq := (evseq prim).
  Notation eval1 := (eval1 prim).
  Notation evargs := (evargs prim).
  Notation evbinds := (evbinds prim).
  Notation evrec := (evrec prim).
  Notation apply := (apply prim).
  Notation ncall := (ncall prim).
  Notation nseq := (nseq prim).
  Notation nargs := (nargs prim).
  Notation nbinds := (nbinds prim).
  Notation nrec := (nrec prim).

  (** ** What it yields *)
  Section Sound.
    Variable E : expr -> bool -> lenv -> store -> out res.
    Definition got_ok (e : expr) : Prop := forall t r s x s1, E e t r s = Got x s1 -> eval t r s e x s1.
    Lemma seq_ok es : Forall got_ok es -> forall t r s x s1, ev_seq E es t r s = Got x s1 -> evseq t r s es x s1.
    Proof.
      induction 1 as [|e es H F IH]; intros t r s x s1 Q; cbn [ev_seq] in Q; [injection Q as <- <-; constructor|].
      destruct es as [|e2 es]; [constructor; auto|]. bg Q. apply H in Q0. destruct o as [vs|y].
      - eapply EsCons; eauto.
      - injection Q as <- <-. apply EsErr; auto.
    Qed.
    Lemma one_ok e : got_ok e -> forall t r s x s1, ev_one E e t r s = Got x s1 -> eval1 t r s e x s1.
    Proof.
      intros H t r s x s1 Q. unfold ev_one in Q. bg Q. apply H in Q0. destruct o as [[|v [|w l]]|y]; injection Q as <- <-.
      - apply (E1Bad prim t r s e [] z); auto.
      - apply E1Val; auto.
      - apply (E1Bad prim t r s e (v :: w :: l) z); auto; discriminate.
      - apply E1Err; auto.
    Qed.
    Lemma args_ok es : Forall got_ok es -> forall t r s x s1, ev_args E es t r s = Got x s1 -> evargs t r s es x s1.
    Proof.
      induction 1 as [|e es H F IH]; intros t r s x s1 Q; cbn [ev_args] in Q; [injection Q as <- <-; constructor|].
      bg Q. apply (one_ok _ H) in Q0. destruct o as [v|y]; [|injection Q as <- <-; apply EaErr; auto].
      bg Q. apply IH in Q1. destruct o as [vs|y]; injection Q as <- <-; [eapply EaCons|eapply EaErrRest]; eauto.
    Qed.
    Lemma binds_ok bs : Forall (fun b => got_ok (snd b)) bs -> forall t r s x s1, ev_binds E bs t r s = Got x s1 -> evbinds t r s bs x s1.
    Proof.
      induction 1 as [|[ids e] bs H F IH]; intros t r s x s1 Q; cbn [ev_binds] in Q; [injection Q as <- <-; constructor|].
      bg Q. apply H in Q0. cbn [snd] in Q0. destruct o as [vs|y]; [|injection Q as <- <-; apply EbErr; auto].
      destruct (Nat.eqb_spec (List.length vs) (List.length ids)); [|injection Q as <- <-; apply EbBad; auto].
      bg Q. apply IH in Q1. destruct o as [ws|y]; injection Q as <- <-; [eapply EbCons|eapply EbErrRest]; eauto.
    Qed.
    Lemma rec_ok bs : Forall (fun b => got_ok (snd b)) bs -> forall t r s k x s1, ev_rec E bs t r s k = Got x s1 -> evrec t r s k bs x s1.
    Proof.
      induction 1 as [|[ids e] bs H F IH]; intros t r s k x s1 Q; cbn [ev_rec] in Q; [injection Q as <- <-; constructor|].
      bg Q. apply H in Q0. cbn [snd] in Q0. destruct o as [vs|y]; [|injection Q as <- <-; apply ErErr; auto].
      destruct (Nat.eqb_spec (List.length vs) (List.length ids)); [|injection Q as <- <-; apply ErBad; auto].
      eapply ErCons; eauto.
    Qed.
  End Sound.

  Section Expr.
    Variable A : store -> val -> list val -> out res.
    Hypothesis AOK : forall s f vs x s1, A s f vs = Got x s1 -> apply s f vs x s1.
    Lemma ev_sound e : got_ok (ev A) e.
    Proof.
      induction e using expr_ind'; unfold got_ok; intros t r s res s1 Q; cbn [ev] in Q.
      - injection Q as <- <-. constructor.
      - injection Q as <- <-. constructor.
      - destruct (lookup_env x r) as [l|] eqn:L.
        + destruct (nth_error (cells_of s) l) as [v|] eqn:C; [|discriminate]. destruct v; simpl in Q; injection Q as <- <-;
            try (eapply EvLocal; eauto; discriminate). eapply EvLocalInit; eauto.
        + destruct (glob_ref x (glob_of s)) as [v|] eqn:C; [|injection Q as <- <-; apply EvGlobalInit; auto].
          destruct v; simpl in Q; injection Q as <- <-; try (eapply EvGlobal; eauto; discriminate). apply EvGlobalInit; auto.
      - bg Q. apply IHe in Q0. destruct o as [vs|y]; [|injection Q as <- <-; apply EvDefineErr; auto].
        destruct (Nat.eqb_spec (List.length vs) (List.length ids)); injection Q as <- <-; [apply EvDefine|apply EvDefineBad]; auto.
      - bg Q. apply IHe in Q0. destruct o as [vs|y]; [|injection Q as <- <-; apply EvSetErr; auto].
        destruct vs as [|v [|]]; try discriminate. destruct (lookup_env x r) as [l|] eqn:L.
        + destruct (Nat.ltb_spec l (List.length (cells_of z))); [|discriminate]. injection Q as <- <-. eapply EvSetLocal; eauto.
        + destruct t; [|injection Q as <- <-; apply EvSetGlobalIn; auto].
          destruct (glob_ref x (glob_of z)) eqn:G; [|discriminate]. injection Q as <- <-. eapply EvSetGlobal; eauto.
      - injection Q as <- <-. constructor. reflexivity.
      - destruct cls as [|c cls]; [discriminate|]. injection Q as <- <-. constructor; [discriminate|reflexivity].
      - constructor. eapply seq_ok; eauto.
      - bg Q. apply IHe1 in Q0. destruct o as [vs|y]; [|injection Q as <- <-; apply EvIfErr; auto].
        destruct vs as [|v [|]]; try discriminate. destruct (falseb v) eqn:B.
        + destruct v; try discriminate. eapply EvIfFalse; [exact Q0|apply IHe3; auto].
        + eapply EvIfTrue; [exact Q0|intros ->; discriminate|apply IHe2; auto].
      - bg Q. apply (one_ok _ _ IHe) in Q0. destruct o as [fv|y]; [|injection Q as <- <-; apply EvAppErrF; auto].
        bg Q. apply (args_ok _ _ H) in Q1. destruct o as [vs|y]; [eapply EvApp; eauto|injection Q as <- <-; eapply EvAppErrA; eauto].
      - bg Q. apply (binds_ok _ _ H) in Q0. destruct o as [vs|y]; [|injection Q as <- <-; apply EvLetErr; auto].
        eapply EvLet; eauto. eapply seq_ok; eauto.
      - cbv zeta in Q. bg Q. apply (rec_ok _ _ H) in Q0. destruct o as [y|].
        + injection Q as <- <-. eapply EvLetrecErr; eauto.
        + eapply EvLetrec; eauto. eapply seq_ok; eauto.
      - bg Q. apply (args_ok _ _ H) in Q0. destruct o as [vs|y]; injection Q as <- <-; [apply EvValues|apply EvValuesErr]; auto.
      - bg Q. apply (one_ok _ _ IHe1) in Q0. destruct o as [pv|y]; [|injection Q as <- <-; apply EvCwvErrP; auto].
        bg Q. apply (one_ok _ _ IHe2) in Q1. destruct o as [cv|y]; [|injection Q as <- <-; eapply EvCwvErrC; eauto].
        bg Q. apply AOK in Q2. destruct o as [vs|y]; [|injection Q as <- <-; eapply EvCwvErrA; eauto]. eapply EvCwv; eauto.
      - bg Q. apply IHe1 in Q0. destruct o as [vs|y]; [|injection Q as <- <-; apply EvMvCallErrP; auto].
        bg Q. apply (one_ok _ _ IHe2) in Q1. destruct o as [cv|y]; [eapply EvMvCall; eauto|injection Q as <- <-; eapply EvMvCallErrC; eauto].
      - destruct ids as [xs [w|]]; [discriminate|]. bg Q. apply IHe1 in Q0. destruct o as [vs|y]; [|injection Q as <- <-; apply EvMvLetErr; auto].
        destruct (Nat.eqb_spec (List.length vs) (List.length xs)); [|injection Q as <- <-; apply EvMvLetBad; auto].
        eapply EvMvLet; [exact Q0|auto|apply IHe2; auto].
      - bg Q. apply (args_ok _ _ H) in Q0. destruct o as [vs|y]; injection Q as <- <-; [apply EvMvValues|apply EvMvValuesErr]; auto.
    Qed.
    Lemma all_sound es : Forall (got_ok (ev A)) es.
    Proof. apply Forall_forall. intros e _. apply ev_sound. Qed.
    Lemma allb_sound (bs : list (list ident * expr)) : Forall (fun b => got_ok (ev A) (snd b)) bs.
    Proof. apply Forall_forall. intros e _. apply ev_sound. Qed.

    (** When it goes on, an application does. *)
    Definition on (P : val -> list val -> store -> Prop) : Prop := exists f vs s1, P f vs s1 /\ A s1 f vs = Going.
    Definition going_ok (e : expr) : Prop := forall t r s, ev A e t r s = Going -> on (ncall t r s e).
    Lemma seq_on es : Forall going_ok es -> forall t r s, ev_seq (ev A) es t r s = Going -> on (nseq t r s es).
    Proof.
      induction 1 as [|e es H F IH]; intros t r s Q; cbn [ev_seq] in Q; [discriminate|].
      destruct es as [|e2 es]; [apply H in Q; destruct Q as [f [vs [z [Q1 Q2]]]]; exists f, vs, z; split; auto; apply NsHere; auto|].
      gg Q.
      - apply H in Q; destruct Q as [f [vs [z [Q1 Q2]]]]; exists f, vs, z; split; auto; apply NsHere; auto.
      - apply ev_sound in Q0. destruct o as [ws|y]; [|discriminate]. apply IH in Q. destruct Q as [f [vs [z' [Q1 Q2]]]].
        exists f, vs, z'. split; auto. eapply NsNext; eauto.
    Qed.
    Lemma one_on e : going_ok e -> forall t r s, ev_one (ev A) e t r s = Going -> on (ncall t r s e).
    Proof.
      intros H t r s Q. unfold ev_one in Q. gg Q; [apply H; auto|]. destruct o as [[|v [|w l]]|y]; discriminate.
    Qed.
    Lemma args_on es : Forall going_ok es -> forall t r s, ev_args (ev A) es t r s = Going -> on (nargs t r s es).
    Proof.
      induction 1 as [|e es H F IH]; intros t r s Q; cbn [ev_args] in Q; [discriminate|]. gg Q.
      - apply (one_on _ H) in Q. destruct Q as [f [vs [z [Q1 Q2]]]]. exists f, vs, z. split; auto. apply NaHere; auto.
      - apply (one_ok _ _ (ev_sound e)) in Q0. destruct o as [v|y]; [|discriminate]. gg Q; [|destruct o; discriminate].
        apply IH in Q. destruct Q as [f [vs [z' [Q1 Q2]]]]. exists f, vs, z'. split; auto. eapply NaNext; eauto.
    Qed.
    Lemma binds_on bs : Forall (fun b => going_ok (snd b)) bs -> forall t r s, ev_binds (ev A) bs t r s = Going -> on (nbinds t r s bs).
    Proof.
      induction 1 as [|[ids e] bs H F IH]; intros t r s Q; cbn [ev_binds] in Q; [discriminate|]. cbn [snd] in H. gg Q.
      - apply H in Q. destruct Q as [f [vs [z [Q1 Q2]]]]. exists f, vs, z. split; auto. apply NbHere; auto.
      - apply ev_sound in Q0. destruct o as [ws|y]; [|discriminate].
        destruct (Nat.eqb_spec (List.length ws) (List.length ids)); [|discriminate]. gg Q; [|destruct o; discriminate].
        apply IH in Q. destruct Q as [f [vs [z' [Q1 Q2]]]]. exists f, vs, z'. split; auto. eapply NbNext; eauto.
    Qed.
    Lemma rec_on bs : Forall (fun b => going_ok (snd b)) bs -> forall t r s k, ev_rec (ev A) bs t r s k = Going -> on (nrec t r s k bs).
    Proof.
      induction 1 as [|[ids e] bs H F IH]; intros t r s k Q; cbn [ev_rec] in Q; [discriminate|]. cbn [snd] in H. gg Q.
      - apply H in Q. destruct Q as [f [vs [z [Q1 Q2]]]]. exists f, vs, z. split; auto. apply NrHere; auto.
      - apply ev_sound in Q0. destruct o as [ws|y]; [|discriminate].
        destruct (Nat.eqb_spec (List.length ws) (List.length ids)); [|discriminate].
        apply IH in Q. destruct Q as [f [vs [z' [Q1 Q2]]]]. exists f, vs, z'. split; auto. eapply NrNext; eauto.
    Qed.
    Ltac pass Q c := destruct Q as [?f [?vs [?z [?Q1 ?Q2]]]]; do 3 eexists; split; [eapply c; eauto|eauto].
    Lemma ev_on e : going_ok e.
    Proof.
      induction e using expr_ind'; unfold going_ok; intros t r s Q; cbn [ev] in Q; try discriminate.
      - destruct (lookup_env x r) as [l|] eqn:L.
        + destruct (nth_error (cells_of s) l) as [v|] eqn:C; [|discriminate]. destruct (unboundb v); discriminate.
        + destruct (glob_ref x (glob_of s)) as [v|] eqn:C; [|discriminate]. destruct (unboundb v); discriminate.
      - gg Q; [apply IHe in Q; pass Q NcDefine|]. destruct o; [|discriminate]. destruct (_ =? _); discriminate.
      - gg Q; [apply IHe in Q; pass Q NcSet|]. destruct o as [[|v [|]]|]; try discriminate.
        destruct (lookup_env x r); [destruct (_ <? _); discriminate|]. destruct t; [|discriminate]. destruct (glob_ref _ _); discriminate.
      - destruct cls; discriminate.
      - apply (seq_on _ H) in Q. pass Q NcBegin.
      - gg Q; [apply IHe1 in Q; pass Q NcIfTest|]. apply ev_sound in Q0. destruct o as [[|v [|]]|]; try discriminate.
        destruct (falseb v) eqn:B.
        + destruct v; try discriminate. apply IHe3 in Q. pass Q NcIfFalse.
        + assert (v <> VFalse) by (intros ->; discriminate). apply IHe2 in Q. pass Q NcIfTrue.
      - gg Q; [apply (one_on _ IHe) in Q; pass Q NcAppF|]. apply (one_ok _ _ (ev_sound e)) in Q0. destruct o as [fv|]; [|discriminate].
        gg Q; [apply (args_on _ H) in Q; pass Q NcAppA|]. apply (args_ok _ _ (all_sound args)) in Q1. destruct o as [ws|]; [|discriminate].
        exists fv, ws, z0. split; auto. eapply NcApp; eauto.
      - gg Q; [apply (binds_on _ H) in Q; pass Q NcLetE|]. apply (binds_ok _ _ (allb_sound bs)) in Q0. destruct o as [ws|]; [|discriminate].
        apply (seq_on _ H0) in Q. pass Q NcLetB.
      - cbv zeta in Q. gg Q; [apply (rec_on _ H) in Q; pass Q NcLetrecE|]. apply (rec_ok _ _ (allb_sound bs)) in Q0. destruct o as [|]; [discriminate|].
        apply (seq_on _ H0) in Q. pass Q NcLetrecB.
      - gg Q; [apply (args_on _ H) in Q; pass Q NcValues|]. destruct o; discriminate.
      - gg Q; [apply (one_on _ IHe1) in Q; pass Q NcCwvP|]. apply (one_ok _ _ (ev_sound e1)) in Q0. destruct o as [pv|]; [|discriminate].
        gg Q; [apply (one_on _ IHe2) in Q; pass Q NcCwvC|]. apply (one_ok _ _ (ev_sound e2)) in Q1. destruct o as [cv|]; [|discriminate].
        gg Q; [do 3 eexists; split; [eapply NcCwv1; eauto|eauto]|]. apply AOK in Q2. destruct o as [ws|]; [|discriminate].
        do 3 eexists. split; [eapply NcCwv2; eauto|eauto].
      - gg Q; [apply IHe1 in Q; pass Q NcMvCallP|]. apply ev_sound in Q0. destruct o as [ws|]; [|discriminate].
        gg Q; [apply (one_on _ IHe2) in Q; pass Q NcMvCallC|]. apply (one_ok _ _ (ev_sound e2)) in Q1. destruct o as [cv|]; [|discriminate].
        do 3 eexists. split; [eapply NcMvCall; eauto|eauto].
      - destruct ids as [xs [w|]]; [discriminate|]. gg Q; [apply IHe1 in Q; pass Q NcMvLetE|]. apply ev_sound in Q0. destruct o as [ws|]; [|discriminate].
        destruct (Nat.eqb_spec (List.length ws) (List.length xs)); [|discriminate]. apply IHe2 in Q. pass Q NcMvLetB.
      - gg Q; [apply (args_on _ H) in Q; pass Q NcMvValues|]. destruct o; discriminate.
    Qed.
    Lemma all_on es : Forall going_ok es.
    Proof. apply Forall_forall. intros e _. apply ev_on. Qed.
  End Expr.

  Lemma ap_sound n : forall s f vs x s1, ap prim n s f vs = Got x s1 -> apply s f vs x s1.
  Proof.
    induction n as [|n IH]; intros s fv vs x s1 Q; cbn [ap] in Q; [discriminate|].
    destruct (proc_at fv (procs_of s)) as [p|] eqn:P; [|injection Q as <- <-; apply ApNotProc; auto]. destruct p.
    + destruct (select cls (List.length vs)) as [[fm body]|] eqn:SL; [|injection Q as <- <-; eapply ApCloArity; eauto].
      destruct (bind_clause fm vs r s) as [r1 s2] eqn:B. eapply ApClo; eauto. eapply seq_ok; [|exact Q]. apply all_sound. exact IH.
    + destruct (Nat.eqb_spec (List.length vs) arity) as [<-|N]; [|injection Q as <- <-; eapply ApPrimArity; eauto].
      destruct (Nat.leb_spec (List.length vs) 6); [|discriminate].
      destruct (prim p vs (heap_of s)) as [[v h|y h]|] eqn:PR; try discriminate; injection Q as <- <-; [eapply ApPrim|eapply ApPrimErr]; eauto.
    + injection Q as <- <-. apply ApValues; auto.
    + destruct vs as [|g args]; [injection Q as <- <-; apply (ApApplyArity prim s fv []); auto; simpl; lia|].
      destruct (split_last args) as [[mid l]|] eqn:SL.
      * apply split_last_ok in SL. subst args. destruct (proc_at g (procs_of s)) eqn:G.
        -- destruct (elems_of _ (heap_of s) l) as [[xs|u]|] eqn:EL; try discriminate; apply elems_of_ok in EL.
           ++ eapply ApApply; eauto. congruence.
           ++ injection Q as <- <-. apply ApApplyList; auto. congruence.
        -- injection Q as <- <-. apply ApApplyProc; auto. destruct mid; discriminate.
      * assert (args = []) as ->. { unfold split_last in SL. destruct (rev args) eqn:R; [|discriminate]. rewrite <- (rev_involutive args), R. auto. }
        injection Q as <- <-. apply (ApApplyArity prim s fv [g]); auto.
    + destruct vs as [|v [|]]; injection Q as <- <-; [apply (ApIdentityArity prim s fv [])|apply ApIdentity|apply (ApIdentityArity prim s fv (v :: v0 :: l))]; auto; discriminate.
    + destruct vs as [|v vs]; injection Q as <- <-; [apply ApVoid; auto|apply (ApVoidArity prim s fv (v :: vs)); auto; discriminate].
    + discriminate.
  Qed.
  Lemma ap_going n : forall s f vs, ap prim n s f vs = Going -> nchain prim n s f vs.
  Proof.
    induction n as [|n IH]; intros s fv vs Q; [constructor|]. cbn [ap] in Q.
    destruct (proc_at fv (procs_of s)) as [p|] eqn:P; [|discriminate]. destruct p; try discriminate.
    - destruct (select cls (List.length vs)) as [[fm body]|] eqn:SL; [|discriminate].
      destruct (bind_clause fm vs r s) as [r1 s2] eqn:B.
      apply (seq_on _ (ap_sound n) _ (all_on _ (ap_sound n) body)) in Q. destruct Q as [g [ws [s' [Q1 Q2]]]].
      econstructor; [eapply NpBody; eauto|]. apply IH. exact Q2.
    - destruct (_ =? _); [|discriminate]. destruct (_ <=? _); [|discriminate]. destruct (prim _ _ _) as [[]|]; discriminate.
    - destruct vs as [|g args]; [discriminate|]. destruct (split_last args) as [[mid l]|] eqn:SL; [|discriminate].
      apply split_last_ok in SL. subst args. destruct (proc_at g (procs_of s)) eqn:G; [|discriminate].
      destruct (elems_of _ (heap_of s) l) as [[xs|u]|] eqn:EL; try discriminate. apply elems_of_ok in EL.
      econstructor; [eapply NpApply; eauto; congruence|]. apply IH. exact Q.
    - destruct vs as [|v [|]]; discriminate.
    - destruct vs as [|]; discriminate.
  Qed.
  Theorem interp_sound n s e x s' : interp prim n s e = Got x s' -> eval true [] s e x s'.
  Proof. apply ev_sound. apply ap_sound. Qed.
  Theorem interp_going n s e : interp prim n s e = Going -> exists f vs s', ncall true [] s e f vs s' /\ nchain prim n s' f vs.
  Proof.
    intros H. apply (ev_on _ (ap_sound n)) in H. destruct H as [f [vs [s1 [H1 H2]]]]. exists f, vs, s1. split; auto. apply ap_going. auto.
  Qed.

  (** ** It yields everything *)
  Definition from (P : nat -> Prop) : Prop := exists n, forall m, n <= m -> P m.
  Lemma from_1 (P Q : nat -> Prop) : from P -> (forall m, P m -> Q m) -> from Q.
  Proof. intros [n H] K. exists n. auto. Qed.
  Lemma from_2 (P P' Q : nat -> Prop) : from P -> from P' -> (forall m, P m -> P' m -> Q m) -> from Q.
  Proof. intros [n H] [n' H'] K. exists (n + n'). intros m L. apply K; [apply H|apply H']; lia. Qed.
  Lemma from_S (P Q : nat -> Prop) : from P -> (forall m, P m -> Q (S m)) -> from Q.
  Proof. intros [n H] K. exists (S n). intros [|m] L; [lia|]. apply K. apply H. lia. Qed.
  Lemma from_now (Q : nat -> Prop) : (forall m, Q m) -> from Q.
  Proof. intros H. exists 0. auto. Qed.
  Lemma from_next (Q : nat -> Prop) : (forall m, Q (S m)) -> from Q.
  Proof. intros H. exists 1. intros [|m] L; [lia|auto]. Qed.

  Lemma unboundb_false v : v <> VUnbound -> unboundb v = false.
  Proof. destruct v; auto. congruence. Qed.
  Lemma falseb_false v : v <> VFalse -> falseb v = false.
  Proof. destruct v; auto. congruence. Qed.
  Lemma split_last_snoc mid l : split_last (mid ++ [l]) = Some (mid, l).
  Proof. unfold split_last. rewrite rev_app_distr. simpl. rewrite rev_involutive. auto. Qed.
  Lemma elems_of_list h v xs : list_at h v xs -> elems_of (S (List.length h)) h v = Some (inl xs).
  Proof.
    intros L. assert (H := read_list_list _ _ _ L). revert H. generalize (List.length h) as f. clear L. intros f. revert v xs.
    induction f as [|f IH]; intros v xs H; cbn [read_list elems_of] in *.
    - destruct (nullb v) eqn:B; [destruct v; try discriminate; injection H as <-; reflexivity|].
      destruct (pair_at h v) as [[a d]|] eqn:E; destruct v; discriminate.
    - destruct (nullb v) eqn:B; [destruct v; try discriminate; injection H as <-; reflexivity|].
      assert (R : match pair_at h v with None => Some None | Some (a, d) => match read_list f h d with Some (Some xs) => Some (Some (a :: xs)) | o => o end end = Some (Some xs))
        by (destruct v; try discriminate; exact H).
      destruct (pair_at h v) as [[a d]|]; [|discriminate]. destruct (read_list f h d) as [[ys|]|] eqn:E; try discriminate.
      injection R as <-. apply IH in E. cbn [elems_of] in E. rewrite E. reflexivity.
  Qed.
  Lemma elems_of_improper h v : improper h v -> elems_of (S (List.length h)) h v = Some (inr tt).
  Proof.
    intros L. assert (H := read_list_improper _ _ L). revert H. generalize (List.length h) as f. clear L. intros f. revert v.
    induction f as [|f IH]; intros v H; cbn [read_list elems_of] in *.
    - destruct (nullb v) eqn:B; [destruct v; discriminate|].
      destruct (pair_at h v) as [[a d]|] eqn:E; [destruct v; discriminate|auto].
    - destruct (nullb v) eqn:B; [destruct v; discriminate|].
      assert (R : match pair_at h v with None => Some None | Some (a, d) => match read_list f h d with Some (Some xs) => Some (Some (a :: xs)) | o => o end end = Some None)
        by (destruct v; try discriminate; exact H).
      destruct (pair_at h v) as [[a d]|]; [|auto]. destruct (read_list f h d) as [[ys|]|] eqn:E; try discriminate.
      apply IH in E. cbn [elems_of] in E. rewrite E. reflexivity.
  Qed.

  Notation EV m := (ev (ap prim m)).
  Ltac eqbs := repeat match goal with
    | H : List.length ?a = ?b |- context [List.length ?a =? ?b] => rewrite (proj2 (Nat.eqb_eq _ _) H)
    | H : List.length ?a <> ?b |- context [List.length ?a =? ?b] => rewrite (proj2 (Nat.eqb_neq _ _) H)
    | H : ?a < ?b |- context [?a <? ?b] => rewrite (proj2 (Nat.ltb_lt _ _) H)
    | H : ?a <= ?b |- context [?a <=? ?b] => rewrite (proj2 (Nat.leb_le _ _) H)
    | H : ?v <> VUnbound |- context [unboundb ?v] => rewrite (unboundb_false _ H)
    | H : ?v <> VFalse |- context [falseb ?v] => rewrite (falseb_false _ H)
    end.
  (** A bound for all the evaluations at hand. *)
  Ltac bounds k :=
    match goal with
    | H : from _ |- _ => let n := fresh "n" in destruct H as [n H]; bounds (k + n)
    | _ => exists (S k); let m := fresh "m" in let L := fresh "L" in
           intros m L; destruct m as [|m]; [exfalso; lia|];
           repeat match goal with H : forall m', ?n <= m' -> _ |- _ => let H' := fresh "G" in
                    assert (H' := H (S m) ltac:(lia)); pose proof (H m ltac:(lia)); clear H end
    end.
  Ltac fill :=
    repeat match goal with
      | H : ?x = Got _ _ |- context [?x] => rewrite H; cbn [bindo]
      | H : ?x = Some _ |- context [?x] => rewrite H
      | H : ?x = None |- context [?x] => rewrite H
      | H : bind_clause ?a ?b ?c ?d = _ |- context [bind_clause ?a ?b ?c ?d] => rewrite H
      | H : new_proc ?a ?b = _ |- context [new_proc ?a ?b] => rewrite H
      end; eqbs; cbn [bindo].
  Theorem complete_all :
    (forall t r s e x s1, eval t r s e x s1 -> from (fun m => EV m e t r s = Got x s1)) /\
    (forall t r s es x s1, evseq t r s es x s1 -> from (fun m => ev_seq (EV m) es t r s = Got x s1)) /\
    (forall t r s e x s1, eval1 t r s e x s1 -> from (fun m => ev_one (EV m) e t r s = Got x s1)) /\
    (forall t r s es x s1, evargs t r s es x s1 -> from (fun m => ev_args (EV m) es t r s = Got x s1)) /\
    (forall t r s bs x s1, evbinds t r s bs x s1 -> from (fun m => ev_binds (EV m) bs t r s = Got x s1)) /\
    (forall t r s k bs x s1, evrec t r s k bs x s1 -> from (fun m => ev_rec (EV m) bs t r s k = Got x s1)) /\
    (forall s f vs x s1, apply s f vs x s1 -> from (fun m => ap prim m s f vs = Got x s1)).
  Proof.
    apply eval_min_all; intros; subst; bounds 0; cbn beta in *.
    all: match goal with
         | |- ap _ _ _ _ _ = _ => cbn [ap]
         | _ => cbn [ev ev_seq ev_args ev_binds ev_rec]
         end.
    all: try match goal with |- ev_one _ _ _ _ _ = _ => unfold ev_one end.
    all: cbv zeta.
    all: try (repeat (fill; try rewrite Nat.eqb_refl); solve [auto]).
    - fill. match goal with H : _ \/ _ |- _ => destruct H as [-> | ->] end; auto.
    - destruct cls; [congruence|]. fill. auto.
    - fill. destruct vs as [|v [|]]; auto. exfalso. simpl in *. lia.
    - fill. destruct vs as [|v [|]]; auto. exfalso. simpl in *. lia.
    - fill. destruct vs as [|v l]; auto. exfalso. simpl in *. lia.
    - rewrite H, split_last_snoc. destruct (proc_at g (procs_of s)); [|congruence]. rewrite (elems_of_list _ _ _ H1). auto.
    - rewrite H. destruct vs as [|v [|w l]]; auto. exfalso. simpl in *. lia.
    - rewrite H. destruct (split_last vs) as [[mid l]|] eqn:SL; [rewrite H0; auto|]. exfalso. unfold split_last in SL.
      destruct (rev vs) eqn:R; [|discriminate]. apply H1. rewrite <- (rev_involutive vs), R. auto.
    - rewrite H, split_last_snoc. destruct (proc_at g (procs_of s)); [|congruence]. rewrite (elems_of_improper _ _ H1). auto.
  Qed.
  Theorem interp_complete s e x s' : eval true [] s e x s' -> exists n, forall m, n <= m -> interp prim m s e = Got x s'.
  Proof. apply complete_all. Qed.

  (** ** More depth changes nothing but [Going] *)
  Definition le_out {T} (o o' : out T) : Prop := o = Going \/ o' = o.
  Lemma le_refl {T} (o : out T) : le_out o o.
  Proof. right. auto. Qed.
  Lemma le_bind {T U} (o o' : out T) (k k' : T -> store -> out U) :
    le_out o o' -> (forall a s, le_out (k a s) (k' a s)) -> le_out (bindo o k) (bindo o' k').
  Proof. intros [-> | ->] H; [left; auto|]. destruct o; simpl; auto using le_refl. Qed.
  Section Mono.
    Variable A A' : store -> val -> list val -> out res.
    Hypothesis AA : forall s f vs, le_out (A s f vs) (A' s f vs).
    Definition mono (e : expr) : Prop := forall t r s, le_out (ev A e t r s) (ev A' e t r s).
    Lemma seq_mono es : Forall mono es -> forall t r s, le_out (ev_seq (ev A) es t r s) (ev_seq (ev A') es t r s).
    Proof.
      induction 1 as [|e es H F IH]; intros t r s; cbn [ev_seq]; [apply le_refl|]. destruct es as [|e2 es]; [apply H|].
      apply le_bind; [apply H|]. intros [vs|y] s1; [apply IH|apply le_refl].
    Qed.
    Lemma one_mono e : mono e -> forall t r s, le_out (ev_one (ev A) e t r s) (ev_one (ev A') e t r s).
    Proof. intros H t r s. apply le_bind; [apply H|]. intros. apply le_refl. Qed.
    Lemma args_mono es : Forall mono es -> forall t r s, le_out (ev_args (ev A) es t r s) (ev_args (ev A') es t r s).
    Proof.
      induction 1 as [|e es H F IH]; intros t r s; cbn [ev_args]; [apply le_refl|].
      apply le_bind; [apply one_mono; auto|]. intros [v|y] s1; [|apply le_refl].
      apply le_bind; [apply IH|]. intros. apply le_refl.
    Qed.
    Lemma binds_mono bs : Forall (fun b => mono (snd b)) bs -> forall t r s, le_out (ev_binds (ev A) bs t r s) (ev_binds (ev A') bs t r s).
    Proof.
      induction 1 as [|[ids e] bs H F IH]; intros t r s; cbn [ev_binds]; [apply le_refl|].
      apply le_bind; [apply H|]. intros [vs|y] s1; [|apply le_refl]. destruct (_ =? _); [|apply le_refl].
      apply le_bind; [apply IH|]. intros. apply le_refl.
    Qed.
    Lemma rec_mono bs : Forall (fun b => mono (snd b)) bs -> forall t r s k, le_out (ev_rec (ev A) bs t r s k) (ev_rec (ev A') bs t r s k).
    Proof.
      induction 1 as [|[ids e] bs H F IH]; intros t r s k; cbn [ev_rec]; [apply le_refl|].
      apply le_bind; [apply H|]. intros [vs|y] s1; [|apply le_refl]. destruct (_ =? _); [apply IH|apply le_refl].
    Qed.
    Lemma ev_mono e : mono e.
    Proof.
      induction e using expr_ind'; unfold mono; intros t r s; cbn [ev]; try apply le_refl.
      - apply le_bind; [apply IHe|]. intros. apply le_refl.
      - apply le_bind; [apply IHe|]. intros. apply le_refl.
      - apply seq_mono; auto.
      - apply le_bind; [apply IHe1|]. intros [[|v [|]]|y] s1; try apply le_refl. destruct (falseb v); auto.
      - apply le_bind; [apply one_mono; auto|]. intros [fv|y] s1; [|apply le_refl].
        apply le_bind; [apply args_mono; auto|]. intros [vs|y] s2; [apply AA|apply le_refl].
      - apply le_bind; [apply binds_mono; auto|]. intros [vs|y] s1; [apply seq_mono; auto|apply le_refl].
      - cbv zeta. apply le_bind; [apply rec_mono; auto|]. intros [y|] s1; [apply le_refl|apply seq_mono; auto].
      - apply le_bind; [apply args_mono; auto|]. intros. apply le_refl.
      - apply le_bind; [apply one_mono; auto|]. intros [pv|y] s1; [|apply le_refl].
        apply le_bind; [apply one_mono; auto|]. intros [cv|y] s2; [|apply le_refl].
        apply le_bind; [apply AA|]. intros [vs|y] s3; [apply AA|apply le_refl].
      - apply le_bind; [apply IHe1|]. intros [vs|y] s1; [|apply le_refl].
        apply le_bind; [apply one_mono; auto|]. intros [cv|y] s2; [apply AA|apply le_refl].
      - destruct ids as [xs [w|]]; [apply le_refl|]. apply le_bind; [apply IHe1|]. intros [vs|y] s1; [|apply le_refl].
        destruct (_ =? _); [apply IHe2|apply le_refl].
      - apply le_bind; [apply args_mono; auto|]. intros. apply le_refl.
    Qed.
    Lemma all_mono es : Forall mono es.
    Proof. apply Forall_forall. intros e _. apply ev_mono. Qed.
    Lemma allb_mono (bs : list (list ident * expr)) : Forall (fun b => mono (snd b)) bs.
    Proof. apply Forall_forall. intros e _. apply ev_mono. Qed.
  End Mono.
  Lemma ap_mono_1 n : forall s f vs, le_out (ap prim n s f vs) (ap prim (S n) s f vs).
  Proof.
    induction n as [|n IH]; intros s f vs; [left; reflexivity|].
    remember (S n) as n1 eqn:E. rewrite E at 1. cbn [ap]. destruct (proc_at f (procs_of s)) as [[]|]; try apply le_refl.
    - destruct (select cls (List.length vs)) as [[fm body]|]; [|apply le_refl]. destruct (bind_clause fm vs r s) as [r1 s2].
      apply seq_mono. subst n1. apply all_mono. apply IH.
    - destruct vs as [|g args]; [apply le_refl|]. destruct (split_last args) as [[mid l]|]; [|apply le_refl].
      destruct (proc_at g (procs_of s)); [|apply le_refl]. destruct (elems_of _ _ _) as [[xs|u]|]; try apply le_refl. subst n1. apply IH.
  Qed.
  Lemma ap_mono n m : n <= m -> forall s f vs, le_out (ap prim n s f vs) (ap prim m s f vs).
  Proof.
    induction 1 as [|m L IH]; intros s f vs; [apply le_refl|]. destruct (IH s f vs) as [H|H]; [left; auto|].
    destruct (ap_mono_1 m s f vs) as [G|G]; [left; congruence|right; congruence].
  Qed.
  Theorem interp_mono n m s e : n <= m -> interp prim n s e <> Going -> interp prim m s e = interp prim n s e.
  Proof. intros L N. destruct (ev_mono _ _ (ap_mono n m L) e true [] s) as [H|H]; [contradiction|exact H]. Qed.

  (** At any depth an evaluation that has an outcome goes on or yields it. *)
  Lemma le_got {T} (o : nat -> out T) n x s : from (fun m => o m = Got x s) ->
    (forall m, n <= m -> le_out (o n) (o m)) -> o n = Going \/ o n = Got x s.
  Proof.
    intros [k H] M. destruct (M (n + k) ltac:(lia)) as [G|G]; auto. right. rewrite <- G. apply H. lia.
  Qed.
  Lemma yields n t r s e x s1 : eval t r s e x s1 -> EV n e t r s = Going \/ EV n e t r s = Got x s1.
  Proof. intros H. apply (le_got (fun m => EV m e t r s)); [apply complete_all; auto|]. intros m L. apply ev_mono. apply ap_mono. auto. Qed.
  Lemma yields1 n t r s e x s1 : eval1 t r s e x s1 -> ev_one (EV n) e t r s = Going \/ ev_one (EV n) e t r s = Got x s1.
  Proof. intros H. apply (le_got (fun m => ev_one (EV m) e t r s)); [apply complete_all; auto|]. intros m L. apply one_mono, ev_mono. apply ap_mono. auto. Qed.
  Lemma yields_args n t r s e x s1 : evargs t r s e x s1 -> ev_args (EV n) e t r s = Going \/ ev_args (EV n) e t r s = Got x s1.
  Proof. intros H. apply (le_got (fun m => ev_args (EV m) e t r s)); [apply complete_all; auto|]. intros m L. apply args_mono, all_mono. apply ap_mono. auto. Qed.
  Lemma yields_binds n t r s e x s1 : evbinds t r s e x s1 -> ev_binds (EV n) e t r s = Going \/ ev_binds (EV n) e t r s = Got x s1.
  Proof. intros H. apply (le_got (fun m => ev_binds (EV m) e t r s)); [apply complete_all; auto|]. intros m L. apply binds_mono, allb_mono. apply ap_mono. auto. Qed.
  Lemma yields_rec n t r s k e x s1 : evrec t r s k e x s1 -> ev_rec (EV n) e t r s k = Going \/ ev_rec (EV n) e t r s k = Got x s1.
  Proof. intros H. apply (le_got (fun m => ev_rec (EV m) e t r s k)); [apply complete_all; auto|]. intros m L. apply rec_mono, allb_mono. apply ap_mono. auto. Qed.
  Lemma yields_apply n s f vs x s1 : apply s f vs x s1 -> ap prim n s f vs = Going \/ ap prim n s f vs = Got x s1.
  Proof. intros H. apply (le_got (fun m => ap prim m s f vs)); [apply complete_all; auto|]. intros m L. apply ap_mono. auto. Qed.

  (** ** When calls nest it goes on *)
  Scheme ncall_min := Minimality for Diverge.ncall Sort Prop
    with nseq_min := Minimality for Diverge.nseq Sort Prop
    with nargs_min := Minimality for Diverge.nargs Sort Prop
    with nbinds_min := Minimality for Diverge.nbinds Sort Prop
    with nrec_min := Minimality for Diverge.nrec Sort Prop.
  Combined Scheme ncall_all from ncall_min, nseq_min, nargs_min, nbinds_min, nrec_min.
  Ltac yl := repeat match goal with
    | H : Sem.eval _ _ _ _ _ _ _ |- context [EV ?n] => apply (yields n) in H; destruct H as [H|H]
    | H : Sem.eval1 _ _ _ _ _ _ _ |- context [EV ?n] => apply (yields1 n) in H; destruct H as [H|H]
    | H : Sem.evargs _ _ _ _ _ _ _ |- context [EV ?n] => apply (yields_args n) in H; destruct H as [H|H]
    | H : Sem.evbinds _ _ _ _ _ _ _ |- context [EV ?n] => apply (yields_binds n) in H; destruct H as [H|H]
    | H : Sem.evrec _ _ _ _ _ _ _ _ |- context [EV ?n] => apply (yields_rec n) in H; destruct H as [H|H]
    | H : Sem.apply _ _ _ _ _ _ |- context [EV ?n] => apply (yields_apply n) in H; destruct H as [H|H]
    end.
  Lemma going_all n :
    (forall t r s e f vs s1, ncall t r s e f vs s1 -> ap prim n s1 f vs = Going -> EV n e t r s = Going) /\
    (forall t r s es f vs s1, nseq t r s es f vs s1 -> ap prim n s1 f vs = Going -> ev_seq (EV n) es t r s = Going) /\
    (forall t r s es f vs s1, nargs t r s es f vs s1 -> ap prim n s1 f vs = Going -> ev_args (EV n) es t r s = Going) /\
    (forall t r s bs f vs s1, nbinds t r s bs f vs s1 -> ap prim n s1 f vs = Going -> ev_binds (EV n) bs t r s = Going) /\
    (forall t r s k bs f vs s1, nrec t r s k bs f vs s1 -> ap prim n s1 f vs = Going -> ev_rec (EV n) bs t r s k = Going).
  Proof.
    apply ncall_all; intros; repeat match goal with IH : ap prim n ?s1 ?f ?vs = Going -> _, G : ap prim n ?s1 ?f ?vs = Going |- _ => specialize (IH G) end;
      yl; cbn [ev ev_seq ev_args ev_binds ev_rec]; cbv zeta.
    all: repeat match goal with
      | H : ?x = Got _ _ |- context [?x] => rewrite H; cbn [bindo]
      | H : ?x = Going |- context [?x] => rewrite H; cbn [bindo]
      | H : ev ?a ?b ?c ?d ?e = _ |- context [ev_one (ev ?a) ?b ?c ?d ?e] => unfold ev_one; rewrite H; cbn [bindo]
      end; eqbs; auto.
    destruct es; auto.
  Qed.
  Lemma chain_going n : forall s f vs, nchain prim n s f vs -> ap prim n s f vs = Going.
  Proof.
    induction n as [|n IH]; intros s f vs H; [reflexivity|]. inversion H as [|? ? ? ? g ws s' S H']; subst. apply IH in H'.
    inversion S as [? ? ? cls r fm body r1 s1 ? ? ? P SL B N|? ? ? mid l xs P G L]; subst; cbn [ap]; rewrite P.
    - rewrite SL, B. eapply (proj1 (proj2 (going_all n))); eauto.
    - rewrite split_last_snoc. destruct (proc_at g (procs_of s')); [|congruence]. rewrite (elems_of_list _ _ _ L). exact H'.
  Qed.
  Theorem interp_going_iff n s e :
    interp prim n s e = Going <-> exists f vs s', ncall true [] s e f vs s' /\ nchain prim n s' f vs.
  Proof.
    split; [apply interp_going|]. intros [f [vs [s' [N C]]]]. eapply (proj1 (going_all n)); eauto. apply chain_going. auto.
  Qed.
End P.
