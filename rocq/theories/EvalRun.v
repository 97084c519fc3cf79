(** Running the semantics of Sem.v: an interpreter with fuel, and its soundness.
    It serves to exhibit the meaning of concrete programs. *)
From Coq Require Import ZArith NArith Bool Ascii String List Arith Lia.
From Verif Require Import Base Heap HeapM Ast Sem SimThm.
Import ListNotations.
Local Open Scope list_scope.

Definition unboundb (v : val) : bool := match v with VUnbound => true | _ => false end.
Definition falseb (v : val) : bool := match v with VFalse => true | _ => false end.
Definition nullb (v : val) : bool := match v with VNull => true | _ => false end.
(** The elements of a list: [inl xs], or [inr tt] when it is improper. *)
Fixpoint elems_of (f : nat) (h : heap) (v : val) : option (list val + unit) :=
  match f with
  | O => None
  | S f' =>
      match pair_at h v with
      | Some (a, d) => match elems_of f' h d with Some (inl xs) => Some (inl (a :: xs)) | o => o end
      | None => if nullb v then Some (inl []) else Some (inr tt)
      end
  end.
Definition split_last (vs : list val) : option (list val * val) :=
  match rev vs with [] => None | l :: r => Some (rev r, l) end.

Section Lists.
  Variable E : bool -> lenv -> store -> expr -> option (res * store).
  Fixpoint run_seq (t : bool) (r : lenv) (s : store) (es : list expr) : option (res * store) :=
    match es with
    | [] => Some (RVals [VVoid], s)
    | [e] => E t r s e
    | e :: es' =>
        match E t r s e with
        | Some (RVals _, s1) => run_seq t r s1 es'
        | o => o
        end
    end.
  Definition run_one (t : bool) (r : lenv) (s : store) (e : expr) : option ((val + err) * store) :=
    match E t r s e with
    | Some (RVals [v], s1) => Some (inl v, s1)
    | Some (RVals vs, s1) => Some (inr (ErrResults 1 (List.length vs)), s1)
    | Some (RErr y, s1) => Some (inr y, s1)
    | None => None
    end.
  Fixpoint run_args (t : bool) (r : lenv) (s : store) (es : list expr) : option ((list val + err) * store) :=
    match es with
    | [] => Some (inl [], s)
    | e :: es' =>
        match run_one t r s e with
        | Some (inl v, s1) =>
            match run_args t r s1 es' with
            | Some (inl vs, s2) => Some (inl (v :: vs), s2)
            | o => o
            end
        | Some (inr y, s1) => Some (inr y, s1)
        | None => None
        end
    end.
  Fixpoint run_binds (t : bool) (r : lenv) (s : store) (bs : list (list ident * expr)) : option ((list val + err) * store) :=
    match bs with
    | [] => Some (inl [], s)
    | (ids, e) :: bs' =>
        match E t r s e with
        | Some (RVals vs, s1) =>
            if List.length vs =? List.length ids then
              match run_binds t r s1 bs' with
              | Some (inl ws, s2) => Some (inl (vs ++ ws), s2)
              | o => o
              end
            else Some (inr (ErrResults (List.length ids) (List.length vs)), s1)
        | Some (RErr y, s1) => Some (inr y, s1)
        | None => None
        end
    end.
  Fixpoint run_rec (t : bool) (r : lenv) (s : store) (k : nat) (bs : list (list ident * expr)) : option (option err * store) :=
    match bs with
    | [] => Some (None, s)
    | (ids, e) :: bs' =>
        match E t r s e with
        | Some (RVals vs, s1) =>
            if List.length vs =? List.length ids then
              run_rec t r (set_cells (seq k (List.length ids)) vs s1) (k + List.length ids) bs'
            else Some (Some (ErrResults (List.length ids) (List.length vs)), s1)
        | Some (RErr y, s1) => Some (Some y, s1)
        | None => None
        end
    end.
End Lists.

Section Run.
  Variable prim : N -> list val -> heap -> option presult.

  Fixpoint run_eval (f : nat) (t : bool) (r : lenv) (s : store) (e : expr) {struct f} : option (res * store) :=
    match f with
    | O => None
    | S f' =>
        let E := run_eval f' in
        match e with
        | EConst v => Some (RVals [v], s)
        | EUnbound => Some (RVals [VUnbound], s)
        | EVar x =>
            match lookup_env x r with
            | Some l =>
                match nth_error (cells_of s) l with
                | Some v => if unboundb v then Some (RErr (ErrInit x), s) else Some (RVals [v], s)
                | None => None
                end
            | None =>
                match glob_ref x (glob_of s) with
                | Some v => if unboundb v then Some (RErr (ErrInit x), s) else Some (RVals [v], s)
                | None => Some (RErr (ErrInit x), s)
                end
            end
        | EDefine ids e1 =>
            match E t r s e1 with
            | Some (RVals vs, s1) =>
                if List.length vs =? List.length ids then Some (RVals [VVoid], set_globs ids vs s1)
                else Some (RErr (ErrResults (List.length ids) (List.length vs)), s1)
            | o => o
            end
        | ESet x e1 =>
            match E t r s e1 with
            | Some (RVals [v], s1) =>
                match lookup_env x r with
                | Some l => if l <? List.length (cells_of s1) then Some (RVals [VVoid], set_cell l v s1) else None
                | None =>
                    if t then match glob_ref x (glob_of s1) with Some _ => Some (RVals [v], set_glob x v s1) | None => None end
                    else Some (RVals [VVoid], set_glob x v s1)
                end
            | Some (RVals _, _) => None
            | o => o
            end
        | ELam fm body => let '(v, s1) := new_proc (PClo [(fm, body)] r) s in Some (RVals [v], s1)
        | ECase [] => None
        | ECase cls => let '(v, s1) := new_proc (PClo cls r) s in Some (RVals [v], s1)
        | EBegin es => run_seq E t r s es
        | EIf a b c =>
            match E t r s a with
            | Some (RVals [v], s1) => if falseb v then E t r s1 c else E t r s1 b
            | Some (RVals _, _) => None
            | o => o
            end
        | EApp g es =>
            match run_one E t r s g with
            | Some (inl fv, s1) =>
                match run_args E t r s1 es with
                | Some (inl vs, s2) => run_apply f' s2 fv vs
                | Some (inr y, s2) => Some (RErr y, s2)
                | None => None
                end
            | Some (inr y, s1) => Some (RErr y, s1)
            | None => None
            end
        | EMvCall p c =>
            match E t r s p with
            | Some (RVals vs, s1) =>
                match run_one E t r s1 c with
                | Some (inl fv, s2) => run_apply f' s2 fv vs
                | Some (inr y, s2) => Some (RErr y, s2)
                | None => None
                end
            | o => o
            end
        | EMvLet e1 (Formals xs None) b =>
            match E t r s e1 with
            | Some (RVals vs, s1) =>
                if List.length vs =? List.length xs then E t (bind_env xs (List.length (cells_of s1)) r) (add_cells vs s1) b
                else Some (RErr (ErrResults (List.length xs) (List.length vs)), s1)
            | o => o
            end
        | EMvLet _ _ _ => None
        | EMvValues es | EValues es =>
            match run_args E t r s es with
            | Some (inl vs, s1) => Some (RVals vs, s1)
            | Some (inr y, s1) => Some (RErr y, s1)
            | None => None
            end
        | ECwv p c =>
            match run_one E t r s p with
            | Some (inl pv, s1) =>
                match run_one E t r s1 c with
                | Some (inl cv, s2) =>
                    match run_apply f' s2 pv [] with
                    | Some (RVals vs, s3) => run_apply f' s3 cv vs
                    | o => o
                    end
                | Some (inr y, s2) => Some (RErr y, s2)
                | None => None
                end
            | Some (inr y, s1) => Some (RErr y, s1)
            | None => None
            end
        | ELet bs body =>
            match run_binds E t r s bs with
            | Some (inl vs, s1) => run_seq E t (bind_env (List.concat (map fst bs)) (List.length (cells_of s1)) r) (add_cells vs s1) body
            | Some (inr y, s1) => Some (RErr y, s1)
            | None => None
            end
        | ELetrec bs body =>
            let base := List.length (cells_of s) in
            let r1 := bind_env (List.concat (map fst bs)) base r in
            match run_rec E t r1 (add_cells (repeat VUnbound (List.length (List.concat (map fst bs)))) s) base bs with
            | Some (None, s1) => run_seq E t r1 s1 body
            | Some (Some y, s1) => Some (RErr y, s1)
            | None => None
            end
        end
    end
  with run_apply (f : nat) (s : store) (fv : val) (vs : list val) {struct f} : option (res * store) :=
    match f with
    | O => None
    | S f' =>
        match proc_at fv (procs_of s) with
        | None => Some (RErr (ErrNotProc fv), s)
        | Some (PClo cls r) =>
            match select cls (List.length vs) with
            | Some (fm, body) => let '(r1, s1) := bind_clause fm vs r s in run_seq (run_eval f') false r1 s1 body
            | None => Some (RErr (ErrArity fv (List.length vs)), s)
            end
        | Some (PPrim p n) =>
            if List.length vs =? n then
              if List.length vs <=? 6 then
                match prim p vs (heap_of s) with
                | Some (PrimVal v h) => Some (RVals [v], set_heap h s)
                | Some (PrimErr e h) => Some (RErr (ErrPrim e), set_heap h s)
                | None => None
                end
              else None
            else Some (RErr (ErrArity fv (List.length vs)), s)
        | Some PValues => Some (RVals vs, s)
        | Some PIdentity => match vs with [v] => Some (RVals [v], s) | _ => Some (RErr (ErrArity fv (List.length vs)), s) end
        | Some PVoid => match vs with [] => Some (RVals [VVoid], s) | _ => Some (RErr (ErrArity fv (List.length vs)), s) end
        | Some PApply =>
            match vs with
            | g :: args =>
                match split_last args with
                | Some (mid, l) =>
                    match proc_at g (procs_of s) with
                    | None => Some (RErr (ErrApply g), s)
                    | Some _ =>
                        match elems_of f' (heap_of s) l with
                        | Some (inl xs) => run_apply f' s g (mid ++ xs)
                        | Some (inr _) => Some (RErr (ErrApply l), s)
                        | None => None
                        end
                    end
                | None => Some (RErr (ErrArity fv (List.length vs)), s)
                end
            | [] => Some (RErr (ErrArity fv (List.length vs)), s)
            end
        | Some PRaise => None
        end
    end.

  Fixpoint run_prog (f : nat) (s : store) (es : list expr) : option (list res * store) :=
    match es with
    | [] => Some ([], s)
    | e :: es' =>
        match run_eval f true [] s e with
        | Some (RVals vs, s1) => match run_prog f s1 es' with Some (rs, s2) => Some (RVals vs :: rs, s2) | None => None end
        | Some (RErr y, s1) => Some ([RErr y], s1)
        | None => None
        end
    end.

  (** ** Soundness *)
  Lemma elems_of_ok f h : forall v o, elems_of f h v = Some o -> match o with inl xs => list_at h v xs | inr _ => improper h v end.
  Proof.
    induction f as [|f IH]; intros v o E; [discriminate|]. simpl in E.
    destruct (pair_at h v) as [[a d]|] eqn:P.
    - destruct (elems_of f h d) as [[xs|u]|] eqn:Q; try discriminate; injection E as <-; apply IH in Q.
      + destruct v; try discriminate. simpl in P. destruct (nth_error h l) as [[]|] eqn:N; try discriminate. injection P as -> ->. econstructor; eauto.
      + eapply ImpCons; eauto.
    - destruct v; simpl in E; injection E as <-; try (apply ImpEnd; [auto|discriminate]). constructor.
  Qed.
  Lemma split_last_ok vs mid l : split_last vs = Some (mid, l) -> vs = mid ++ [l].
  Proof.
    unfold split_last. destruct (rev vs) as [|x r] eqn:R; [discriminate|]. intros H. injection H as <- <-.
    rewrite <- (rev_involutive vs), R. auto.
  Qed.

  Section Sound.
    Variable E : bool -> lenv -> store -> expr -> option (res * store).
    Hypothesis EOK : forall t r s e x s1, E t r s e = Some (x, s1) -> eval prim t r s e x s1.
    Lemma run_seq_ok t r es : forall s x s1, run_seq E t r s es = Some (x, s1) -> evseq prim t r s es x s1.
    Proof.
      induction es as [|e es IH]; intros s x s1 Q; simpl in Q; [injection Q as <- <-; constructor|].
      destruct es as [|e2 es]; [constructor; auto|]. destruct (E t r s e) as [[[vs|y] s2]|] eqn:Q1; try discriminate.
      - eapply EsCons; eauto.
      - injection Q as <- <-. apply EsErr; auto.
    Qed.
    Lemma run_one_ok t r s e x s1 : run_one E t r s e = Some (x, s1) -> eval1 prim t r s e x s1.
    Proof.
      unfold run_one. destruct (E t r s e) as [[[vs|y] s2]|] eqn:Q1; try discriminate.
      - destruct vs as [|v [|]]; intros H; injection H as <- <-; [apply (E1Bad prim t r s e [] s2)|constructor; auto|apply (E1Bad prim t r s e (v :: v0 :: l) s2)]; auto; discriminate.
      - intros H; injection H as <- <-. apply E1Err; auto.
    Qed.
    Lemma run_args_ok t r es : forall s x s1, run_args E t r s es = Some (x, s1) -> evargs prim t r s es x s1.
    Proof.
      induction es as [|e es IH]; intros s x s1 Q; simpl in Q; [injection Q as <- <-; constructor|].
      destruct (run_one E t r s e) as [[[v|y] s2]|] eqn:Q1; try discriminate; apply run_one_ok in Q1.
      - destruct (run_args E t r s2 es) as [[[vs|y] s3]|] eqn:Q2; try discriminate; injection Q as <- <-; apply IH in Q2; [eapply EaCons|eapply EaErrRest]; eauto.
      - injection Q as <- <-. apply EaErr; auto.
    Qed.
    Lemma run_binds_ok t r bs : forall s x s1, run_binds E t r s bs = Some (x, s1) -> evbinds prim t r s bs x s1.
    Proof.
      induction bs as [|[ids e] bs IH]; intros s x s1 Q; simpl in Q; [injection Q as <- <-; constructor|].
      destruct (E t r s e) as [[[vs|y] s2]|] eqn:Q1; try discriminate; apply EOK in Q1.
      - destruct (Nat.eqb_spec (List.length vs) (List.length ids)).
        + destruct (run_binds E t r s2 bs) as [[[ws|y] s3]|] eqn:Q2; try discriminate; injection Q as <- <-; apply IH in Q2; [eapply EbCons|eapply EbErrRest]; eauto.
        + injection Q as <- <-. apply EbBad; auto.
      - injection Q as <- <-. apply EbErr; auto.
    Qed.
    Lemma run_rec_ok t r bs : forall s k x s1, run_rec E t r s k bs = Some (x, s1) -> evrec prim t r s k bs x s1.
    Proof.
      induction bs as [|[ids e] bs IH]; intros s k x s1 Q; simpl in Q; [injection Q as <- <-; constructor|].
      destruct (E t r s e) as [[[vs|y] s2]|] eqn:Q1; try discriminate; apply EOK in Q1.
      - destruct (Nat.eqb_spec (List.length vs) (List.length ids)).
        + apply IH in Q. eapply ErCons; eauto.
        + injection Q as <- <-. apply ErBad; auto.
      - injection Q as <- <-. apply ErErr; auto.
    Qed.
  End Sound.

  Lemma run_ok f : (forall t r s e x s1, run_eval f t r s e = Some (x, s1) -> eval prim t r s e x s1) /\
                   (forall s fv vs x s1, run_apply f s fv vs = Some (x, s1) -> apply prim s fv vs x s1).
  Proof.
    induction f as [|f [IHe IHa]]; [split; intros; discriminate|].
    assert (SQ := run_seq_ok _ IHe). assert (ON := run_one_ok _ IHe). assert (AR := run_args_ok _ IHe).
    assert (BI := run_binds_ok _ IHe). assert (RC := run_rec_ok _ IHe).
    split.
    - intros t r s e x s1 Q. destruct e; cbn [run_eval] in Q.
      + injection Q as <- <-. constructor.
      + injection Q as <- <-. constructor.
      + destruct (lookup_env x0 r) as [l|] eqn:L.
        * destruct (nth_error (cells_of s) l) as [v|] eqn:C; [|discriminate]. destruct v; simpl in Q; injection Q as <- <-;
            try (eapply EvLocal; eauto; discriminate). eapply EvLocalInit; eauto.
        * destruct (glob_ref x0 (glob_of s)) as [v|] eqn:C; [|injection Q as <- <-; apply EvGlobalInit; auto].
          destruct v; simpl in Q; injection Q as <- <-; try (eapply EvGlobal; eauto; discriminate). apply EvGlobalInit; auto.
      + destruct (run_eval f t r s e) as [[[vs|y] s2]|] eqn:Q1; try discriminate; apply IHe in Q1.
        * destruct (Nat.eqb_spec (List.length vs) (List.length ids)); injection Q as <- <-; [apply EvDefine|apply EvDefineBad]; auto.
        * injection Q as <- <-. apply EvDefineErr; auto.
      + destruct (run_eval f t r s e) as [[[vs|y] s2]|] eqn:Q1; try discriminate; apply IHe in Q1.
        * destruct vs as [|v [|]]; try discriminate. destruct (lookup_env x0 r) as [l|] eqn:L.
          -- destruct (Nat.ltb_spec l (List.length (cells_of s2))); [|discriminate]. injection Q as <- <-. eapply EvSetLocal; eauto.
          -- destruct t; [|injection Q as <- <-; apply EvSetGlobalIn; auto].
             destruct (glob_ref x0 (glob_of s2)) eqn:G; [|discriminate]. injection Q as <- <-. eapply EvSetGlobal; eauto.
        * injection Q as <- <-. apply EvSetErr; auto.
      + injection Q as <- <-. constructor. reflexivity.
      + destruct cls as [|c cls]; [discriminate|]. injection Q as <- <-. constructor; [discriminate|reflexivity].
      + constructor. auto.
      + destruct (run_eval f t r s e1) as [[[vs|y] s2]|] eqn:Q1; try discriminate; apply IHe in Q1.
        * destruct vs as [|v [|]]; try discriminate. destruct (falseb v) eqn:B.
          -- destruct v; try discriminate. eapply EvIfFalse; eauto.
          -- eapply EvIfTrue; eauto. intros ->. discriminate.
        * injection Q as <- <-. apply EvIfErr; auto.
      + destruct (run_one _ t r s e) as [[[fv|y] s2]|] eqn:Q1; try discriminate; apply ON in Q1.
        * destruct (run_args _ t r s2 args) as [[[vs|y] s3]|] eqn:Q2; try discriminate; apply AR in Q2; [eapply EvApp; eauto|].
          injection Q as <- <-. eapply EvAppErrA; eauto.
        * injection Q as <- <-. apply EvAppErrF; auto.
      + destruct (run_binds _ t r s bs) as [[[vs|y] s2]|] eqn:Q1; try discriminate; apply BI in Q1.
        * eapply EvLet; eauto.
        * injection Q as <- <-. apply EvLetErr; auto.
      + cbv zeta in Q. destruct (run_rec _ t _ _ _ bs) as [[[y|] s2]|] eqn:Q1; try discriminate; apply RC in Q1.
        * injection Q as <- <-. eapply EvLetrecErr; eauto.
        * eapply EvLetrec; eauto.
      + destruct (run_args _ t r s es) as [[[vs|y] s3]|] eqn:Q2; try discriminate; apply AR in Q2; injection Q as <- <-; [apply EvValues|apply EvValuesErr]; auto.
      + destruct (run_one _ t r s e1) as [[[pv|y] s2]|] eqn:Q1; try discriminate; apply ON in Q1; [|injection Q as <- <-; apply EvCwvErrP; auto].
        destruct (run_one _ t r s2 e2) as [[[cv|y] s3]|] eqn:Q2; try discriminate; apply ON in Q2; [|injection Q as <- <-; eapply EvCwvErrC; eauto].
        destruct (run_apply f s3 pv []) as [[[vs|y] s4]|] eqn:Q3; try discriminate; apply IHa in Q3; [|injection Q as <- <-; eapply EvCwvErrA; eauto].
        eapply EvCwv; eauto.
      + destruct (run_eval f t r s e1) as [[[vs|y] s2]|] eqn:Q1; try discriminate; apply IHe in Q1; [|injection Q as <- <-; apply EvMvCallErrP; auto].
        destruct (run_one _ t r s2 e2) as [[[cv|y] s3]|] eqn:Q2; try discriminate; apply ON in Q2; [|injection Q as <- <-; eapply EvMvCallErrC; eauto].
        eapply EvMvCall; eauto.
      + destruct ids as [xs [y|]]; [discriminate|].
        destruct (run_eval f t r s e1) as [[[vs|y] s2]|] eqn:Q1; try discriminate; apply IHe in Q1; [|injection Q as <- <-; apply EvMvLetErr; auto].
        destruct (Nat.eqb_spec (List.length vs) (List.length xs)); [eapply EvMvLet; eauto|injection Q as <- <-; apply EvMvLetBad; auto].
      + destruct (run_args _ t r s es) as [[[vs|y] s3]|] eqn:Q2; try discriminate; apply AR in Q2; injection Q as <- <-; [apply EvMvValues|apply EvMvValuesErr]; auto.
    - intros s fv vs x s1 Q. cbn [run_apply] in Q. destruct (proc_at fv (procs_of s)) as [p|] eqn:P; [|injection Q as <- <-; apply ApNotProc; auto].
      destruct p.
      + destruct (select cls (List.length vs)) as [[fm body]|] eqn:SL; [|injection Q as <- <-; eapply ApCloArity; eauto].
        destruct (bind_clause fm vs r s) as [r1 s2] eqn:B. eapply ApClo; eauto.
      + destruct (Nat.eqb_spec (List.length vs) arity) as [<-|N]; [|injection Q as <- <-; eapply ApPrimArity; eauto].
        destruct (Nat.leb_spec (List.length vs) 6); [|discriminate].
        destruct (prim p vs (heap_of s)) as [[v h|y h]|] eqn:PR; try discriminate; injection Q as <- <-; [eapply ApPrim|eapply ApPrimErr]; eauto.
      + injection Q as <- <-. apply ApValues; auto.
      + destruct vs as [|g args]; [injection Q as <- <-; apply (ApApplyArity prim s fv []); auto; simpl; lia|].
        destruct (split_last args) as [[mid l]|] eqn:SL.
        * apply split_last_ok in SL. subst args. destruct (proc_at g (procs_of s)) eqn:G.
          -- destruct (elems_of f (heap_of s) l) as [[xs|u]|] eqn:EL; try discriminate; apply elems_of_ok in EL.
             ++ eapply ApApply; eauto. congruence.
             ++ injection Q as <- <-. apply ApApplyList; auto. congruence.
          -- injection Q as <- <-. apply ApApplyProc; auto. destruct mid; discriminate.
        * assert (args = []) as ->. { unfold split_last in SL. destruct (rev args) eqn:R; [|discriminate]. rewrite <- (rev_involutive args), R. auto. }
          injection Q as <- <-. apply (ApApplyArity prim s fv [g]); auto.
      + destruct vs as [|v [|]]; injection Q as <- <-; [apply (ApIdentityArity prim s fv [])|apply ApIdentity|apply (ApIdentityArity prim s fv (v :: v0 :: l))]; auto; discriminate.
      + destruct vs as [|v vs]; injection Q as <- <-; [apply ApVoid; auto|apply (ApVoidArity prim s fv (v :: vs)); auto; discriminate].
      + discriminate.
  Qed.
  Theorem run_prog_ok f es : forall s rs s1, run_prog f s es = Some (rs, s1) -> meaning prim s es rs s1.
  Proof.
    induction es as [|e es IH]; intros s rs s1 Q; simpl in Q; [injection Q as <- <-; constructor|].
    destruct (run_eval f true [] s e) as [[[vs|y] s2]|] eqn:Q1; try discriminate; apply run_ok in Q1.
    - destruct (run_prog f s2 es) as [[rs2 s3]|] eqn:Q2; [|discriminate]. injection Q as <- <-. econstructor; eauto.
    - injection Q as <- <-. constructor; auto.
  Qed.
End Run.
