(** The compiler as a relation, for proofs by induction: every successful run of
    [compile] is a derivation of [comp]. *)
From Coq Require Import ZArith NArith Bool Ascii String List Arith Lia.
From Verif Require Import Base Heap Ast FreeVars Code Compile.
Import ListNotations.
Local Open Scope list_scope.

Definition proc_of (e : expr) : option (list clause * list (list ident)) :=
  match e with
  | ELam fm body => Some ([(fm, body)], lambda_bounds fm body)
  | ECase cls => Some (cls, case_bounds cls)
  | _ => None
  end.

Definition closure_body (fvs : list ident) (sc : scope) : list sitem :=
  match fvs with
  | [] => []
  | _ => [ins (Imov Rt0 Rres)] ++ fill_closure 0 fvs sc ++ [ins (Imov Rres Rt0)]
  end.

Definition clause_branch (fm : formals) (l : nat) : sitem :=
  ins (if has_rest fm then Ibranchlt (formals_len fm) l else Ibranchne (formals_len fm) l).
Definition clause_start (label : option nat) : sitem :=
  match label with Some l0 => Lab l0 | None => ins (Imov Rres Rac) end.

Inductive comp : expr -> scope -> bool -> cst -> list sitem -> cst -> Prop :=
| CConst v sc t s : comp (EConst v) sc t s (with_tail_ret [ins (Iliteral v)] t) s
| CUnbound sc t s : comp EUnbound sc t s (with_tail_ret [ins (Iliteral VUnbound)] t) s
| CVar x sc t s :
    comp (EVar x) sc t s (with_tail_ret [ins (match scope_ref sc x with None => Itl_lookup x | Some i => Ilookup i end)] t) s
| CDefine ids e sc t s its s1 :
    comp e sc false s its s1 ->
    comp (EDefine ids e) sc t s (with_tail_ret (its ++ [ins (Itl_bind_values (List.length ids) ids)]) t) s1
| CSet x e sc t s its s1 :
    comp e sc false s its s1 ->
    comp (ESet x e) sc t s
         (with_tail_ret (its ++ [ins (match scope_ref sc x with None => Itl_rebind x | Some i => Irebind i end)]) t) s1
| CProc e cls bounds sc t s its l ar s1 its' reloc c :
    proc_of e = Some (cls, bounds) ->
    cclauses cls bounds (free_vars e) None ANull (CSt 0 (tmpls s)) its (Some l) ar s1 ->
    resolve_refs (tmpls s1) (its ++ [Lab l; ins Ido_arity_error]) = Some (its', reloc) ->
    write_code its' reloc ar = Some c ->
    comp e sc t s
         (with_tail_ret ([ins (Imake_closure (List.length (tmpls s1)) (List.length (free_vars e)))]
                           ++ closure_body (free_vars e) sc) t)
         (CSt (labels s) (c :: tmpls s1))
| CMvCallT p c sc s its1 s1 its2 s2 :
    comp p sc false s its1 s1 -> comp c sc false s1 its2 s2 ->
    comp (EMvCall p c) sc true s
         (its1 ++ [ins Iclear_frame; ins Ido_with_values] ++ its2 ++ [ins Iset_proc; ins Iapply]) s2
| CMvCall p c sc s its1 s1 its2 s2 :
    comp p sc false (CSt (S (labels s)) (tmpls s)) its1 s1 -> comp c sc false s1 its2 s2 ->
    comp (EMvCall p c) sc false s
         ([ins (Isave_cc (labels s))] ++ its1 ++ [ins Iclear_frame; ins Ido_with_values] ++ its2
            ++ [ins Iset_proc; ins Iapply] ++ [Lab (labels s)]) s2
| CMvLet e xs body sc t s its1 s1 its2 s2 :
    comp e sc false s its1 s1 -> comp body (rev xs ++ sc) t s1 its2 s2 ->
    comp (EMvLet e (Formals xs None) body) sc t s
         (its1 ++ [ins (Ibind_values (List.length sc) (List.length xs) xs)] ++ its2) s2
| CMvValues0 sc t s : comp (EMvValues []) sc t s (with_tail_ret [ins Ido_values] t) s
| CMvValues e es sc t s its s1 :
    cargs (e :: es) sc s its s1 ->
    comp (EMvValues (e :: es)) sc t s
         (with_tail_ret ([ins (Icheck_stack (List.length (e :: es)))] ++ its ++ [ins Ido_values; ins Iclear_frame]) t) s1
| CBegin es sc t s its s1 : cseq es sc t s its s1 -> comp (EBegin es) sc t s its s1
| CIfT a b c sc s its1 s1 its2 s2 its3 s3 :
    comp a sc false s its1 s1 -> comp b sc true s1 its2 s2 -> comp c sc true s2 its3 s3 ->
    comp (EIf a b c) sc true s
         (its1 ++ [ins (Ibranchf (labels s3))] ++ its2 ++ [Lab (labels s3)] ++ its3) (CSt (S (labels s3)) (tmpls s3))
| CIf a b c sc s its1 s1 its2 s2 its3 s3 :
    comp a sc false s its1 s1 -> comp b sc false s1 its2 s2 -> comp c sc false s2 its3 s3 ->
    comp (EIf a b c) sc false s
         (its1 ++ [ins (Ibranchf (labels s3))] ++ its2 ++ [ins (Ibrancha (S (labels s3))); Lab (labels s3)] ++ its3
            ++ [Lab (S (labels s3))]) (CSt (S (S (labels s3))) (tmpls s3))
| CAppT f es sc s its1 s1 its2 s2 :
    comp f sc false s its1 s1 -> cargs es sc s1 its2 s2 ->
    comp (EApp f es) sc true s
         (its1 ++ [ins Iset_proc; ins (Icheck_stack (List.length es))] ++ its2 ++ [ins Iapply]) s2
| CApp f es sc s its1 s1 its2 s2 :
    comp f sc false (CSt (S (labels s)) (tmpls s)) its1 s1 -> cargs es sc s1 its2 s2 ->
    comp (EApp f es) sc false s
         ([ins (Isave_cc (labels s))] ++ its1 ++ [ins Iset_proc; ins (Icheck_stack (List.length es))] ++ its2
            ++ [ins Iapply] ++ [Lab (labels s)]) s2
with cseq : list expr -> scope -> bool -> cst -> list sitem -> cst -> Prop :=
| CSNil sc t s : cseq [] sc t s (with_tail_ret [ins (Iliteral VVoid)] t) s
| CSLast e sc t s its s1 : comp e sc t s its s1 -> cseq [e] sc t s its s1
| CSCons e e' es sc t s its1 s1 its2 s2 :
    comp e sc false s its1 s1 -> cseq (e' :: es) sc t s1 its2 s2 -> cseq (e :: e' :: es) sc t s (its1 ++ its2) s2
with cargs : list expr -> scope -> cst -> list sitem -> cst -> Prop :=
| CANil sc s : cargs [] sc s [] s
| CACons e es sc s its1 s1 its2 s2 :
    comp e sc false s its1 s1 -> cargs es sc s1 its2 s2 -> cargs (e :: es) sc s (its1 ++ [ins Ipush] ++ its2) s2
with cclauses : list clause -> list (list ident) -> list ident -> option nat -> arity -> cst ->
                list sitem -> option nat -> arity -> cst -> Prop :=
| CCNil bounds fvs label ar s : cclauses [] bounds fvs label ar s [] label ar s
| CCCons fm body cls bounds fvs label ar s ar1 binds sc1 its1 s1 its2 label' ar' s2 :
    update_arity ar (formals_len fm) (has_rest fm) = Some ar1 ->
    bind_formals fm (fvs_scope fvs) = (binds, sc1) ->
    cseq body sc1 true (CSt (S (labels s)) (tmpls s)) its1 s1 ->
    cclauses cls (tl bounds) fvs (Some (labels s)) ar1 s1 its2 label' ar' s2 ->
    cclauses ((fm, body) :: cls) bounds fvs label ar s
             ([clause_start label; clause_branch fm (labels s)]
                ++ [ins (Ipush_env (List.length fvs + List.length (hd [] bounds))); ins Iclosure_bind] ++ binds
                ++ [ins Iclear_frame] ++ its1 ++ its2) label' ar' s2.

Scheme comp_mut := Minimality for comp Sort Prop
  with cseq_mut := Minimality for cseq Sort Prop
  with cargs_mut := Minimality for cargs Sort Prop
  with cclauses_mut := Minimality for cclauses Sort Prop.
Combined Scheme comp_all from comp_mut, cseq_mut, cargs_mut, cclauses_mut.

(** ** Every run of the compiler is a derivation. *)
Section Sound.
  (* the local functions of [compile] *)
  Definition seq_fix := fix seq (es : list expr) (sc : scope) (tailp : bool) (s : cst) {struct es} : option (list sitem * cst) :=
    match es with
    | [] => Some (with_tail_ret [ins (Iliteral VVoid)] tailp, s)
    | [e] => compile e sc tailp s
    | e :: r =>
        match compile e sc false s with
        | None => None
        | Some (its, s1) =>
            match seq r sc tailp s1 with
            | None => None
            | Some (its', s2) => Some (its ++ its', s2)
            end
        end
    end.
  Definition args_fix := fix args (es : list expr) (sc : scope) (s : cst) {struct es} : option (list sitem * cst) :=
    match es with
    | [] => Some ([], s)
    | e :: r =>
        match compile e sc false s with
        | None => None
        | Some (its, s1) =>
            match args r sc s1 with
            | None => None
            | Some (its', s2) => Some (its ++ [ins Ipush] ++ its', s2)
            end
        end
    end.
  Definition clauses_fix := fix clauses (cls : list (formals * list expr)) (bounds : list (list ident)) (fvs : list ident) (label : option nat)
                  (ar : arity) (s : cst) {struct cls} : option (list sitem * option nat * arity * cst) :=
    match cls with
    | [] => Some ([], label, ar, s)
    | (fm, body) :: r =>
        let l := labels s in
        let br := if has_rest fm then Ibranchlt (formals_len fm) l else Ibranchne (formals_len fm) l in
        let start := match label with
                     | Some l0 => [Lab l0]
                     | None => [ins (Imov Rres Rac)]
                     end in
        match update_arity ar (formals_len fm) (has_rest fm) with
        | None => None
        | Some ar1 =>
            let size := List.length fvs + List.length (hd [] bounds) in
            let '(binds, sc1) := bind_formals fm (fvs_scope fvs) in
            match seq_fix body sc1 true (CSt (S l) (tmpls s)) with
            | None => None
            | Some (its, s1) =>
                match clauses r (tl bounds) fvs (Some l) ar1 s1 with
                | None => None
                | Some (its', label', ar', s2) =>
                    Some (start ++ [ins br; ins (Ipush_env size); ins Iclosure_bind] ++ binds ++ [ins Iclear_frame]
                            ++ its ++ its', label', ar', s2)
                end
            end
        end
    end.
  Definition proc_fix cls fvs bounds sc tailp s : option (list sitem * cst) :=
    match clauses_fix cls bounds fvs None ANull (CSt 0 (tmpls s)) with
    | Some (its, Some l, ar, s1) =>
        match resolve_refs (tmpls s1) (its ++ [Lab l; ins Ido_arity_error]) with
        | None => None
        | Some (its', reloc) =>
            match write_code its' reloc ar with
            | None => None
            | Some c => Some (with_tail_ret ([ins (Imake_closure (List.length (tmpls s1)) (List.length fvs))] ++ closure_body fvs sc) tailp,
                              CSt (labels s) (c :: tmpls s1))
            end
        end
    | _ => None
    end.

  Lemma compile_begin es sc t s : compile (EBegin es) sc t s = seq_fix es sc t s.
  Proof. reflexivity. Qed.
  Lemma compile_proc e cls bounds sc t s :
    proc_of e = Some (cls, bounds) -> compile e sc t s = proc_fix cls (free_vars e) bounds sc t s.
  Proof. destruct e; try discriminate; intros [= <- <-]; reflexivity. Qed.
  Lemma compile_app f es sc t s :
    compile (EApp f es) sc t s =
      match compile f sc false (if t then s else CSt (S (labels s)) (tmpls s)) with
      | None => None
      | Some (its1, s1) =>
          match args_fix es sc s1 with
          | None => None
          | Some (its2, s2) =>
              Some ((if t then [] else [ins (Isave_cc (labels s))]) ++ its1 ++ [ins Iset_proc; ins (Icheck_stack (List.length es))]
                      ++ its2 ++ [ins Iapply] ++ (if t then [] else [Lab (labels s)]), s2)
          end
      end.
  Proof. reflexivity. Qed.
  Lemma compile_mvvalues e es sc t s :
    compile (EMvValues (e :: es)) sc t s =
      match args_fix (e :: es) sc s with
      | None => None
      | Some (its, s1) =>
          Some (with_tail_ret ([ins (Icheck_stack (List.length (e :: es)))] ++ its ++ [ins Ido_values; ins Iclear_frame]) t, s1)
      end.
  Proof. reflexivity. Qed.

  Definition sound_at (e : expr) : Prop := forall sc t s its s', compile e sc t s = Some (its, s') -> comp e sc t s its s'.

  Lemma seq_sound es : Forall sound_at es -> forall sc t s its s', seq_fix es sc t s = Some (its, s') -> cseq es sc t s its s'.
  Proof.
    induction es as [|e [|e' r] IH]; intros F sc t s its s' C.
    - injection C as <- <-. constructor.
    - inversion F; subst. constructor. auto.
    - inversion F as [|? ? S1 F']; subst. cbn [seq_fix] in C.
      destruct (compile e sc false s) as [[i1 s1]|] eqn:E1; [|discriminate].
      fold (seq_fix (e' :: r) sc t s1) in C.
      change (match seq_fix (e' :: r) sc t s1 with
              | Some (its', s2) => Some (i1 ++ its', s2)
              | None => None
              end = Some (its, s')) in C.
      destruct (seq_fix (e' :: r) sc t s1) as [[i2 s2]|] eqn:E2; [|discriminate].
      injection C as <- <-. econstructor; eauto.
  Qed.

  Lemma args_sound es : Forall sound_at es -> forall sc s its s', args_fix es sc s = Some (its, s') -> cargs es sc s its s'.
  Proof.
    induction es as [|e r IH]; intros F sc s its s' C.
    - injection C as <- <-. constructor.
    - inversion F as [|? ? S1 F']; subst. cbn [args_fix] in C.
      destruct (compile e sc false s) as [[i1 s1]|] eqn:E1; [|discriminate].
      destruct (args_fix r sc s1) as [[i2 s2]|] eqn:E2; [|discriminate].
      injection C as <- <-. econstructor; eauto.
  Qed.

  Lemma clauses_sound cls : Forall (fun c => Forall sound_at (snd c)) cls ->
    forall bounds fvs label ar s its label' ar' s',
      clauses_fix cls bounds fvs label ar s = Some (its, label', ar', s') ->
      cclauses cls bounds fvs label ar s its label' ar' s'.
  Proof.
    induction cls as [|[fm body] r IH]; intros F bounds fvs label ar s its label' ar' s' C.
    - injection C as <- <- <- <-. constructor.
    - inversion F as [|? ? S1 F']; subst. cbn [snd] in S1. cbn [clauses_fix] in C. cbv zeta in C.
      destruct (update_arity ar (formals_len fm) (has_rest fm)) as [ar1|] eqn:EA; [|discriminate].
      destruct (bind_formals fm (fvs_scope fvs)) as [binds sc1] eqn:EB.
      destruct (seq_fix body sc1 true (CSt (S (labels s)) (tmpls s))) as [[i1 s1]|] eqn:E1; [|discriminate].
      destruct (clauses_fix r (tl bounds) fvs (Some (labels s)) ar1 s1) as [[[[i2 l2] a2] s2]|] eqn:E2; [|discriminate].
      injection C as <- <- <- <-.
      replace (match label with Some l0 => [Lab l0] | None => [ins (Imov Rres Rac)] end) with [clause_start label]
        by (destruct label; reflexivity).
      eapply CCCons; eauto. eapply seq_sound; eauto.
  Qed.

  Lemma proc_sound e cls bounds sc t s its s' :
    proc_of e = Some (cls, bounds) -> Forall (fun c => Forall sound_at (snd c)) cls ->
    compile e sc t s = Some (its, s') -> comp e sc t s its s'.
  Proof.
    intros PO F C. rewrite (compile_proc _ _ _ _ _ _ PO) in C. unfold proc_fix in C.
    destruct (clauses_fix cls bounds (free_vars e) None ANull (CSt 0 (tmpls s))) as [[[[i1 [l|]] ar] s1]|] eqn:E1; try discriminate.
    destruct (resolve_refs (tmpls s1) (i1 ++ [Lab l; ins Ido_arity_error])) as [[i2 reloc]|] eqn:E2; [|discriminate].
    destruct (write_code i2 reloc ar) as [c|] eqn:E3; [|discriminate].
    injection C as <- <-. eapply CProc; eauto. eapply clauses_sound; eauto.
  Qed.

  Theorem compile_sound e : sound_at e.
  Proof.
    induction e using expr_ind'; intros sc t s its s' C; try discriminate C.
    - injection C as <- <-. constructor.
    - injection C as <- <-. constructor.
    - injection C as <- <-. constructor.
    - cbn [compile] in C. destruct (compile e sc false s) as [[i1 s1]|] eqn:E; [|discriminate].
      injection C as <- <-. constructor. auto.
    - cbn [compile] in C. destruct (compile e sc false s) as [[i1 s1]|] eqn:E; [|discriminate].
      injection C as <- <-. constructor. auto.
    - eapply proc_sound; [reflexivity| |exact C]. constructor; auto.
    - eapply proc_sound; [reflexivity| |exact C]. auto.
    - rewrite compile_begin in C. constructor. eapply seq_sound; eauto.
    - cbn [compile] in C. destruct (compile e1 sc false s) as [[i1 s1]|] eqn:E1; [|discriminate].
      destruct (compile e2 sc t s1) as [[i2 s2]|] eqn:E2; [|discriminate].
      destruct (compile e3 sc t s2) as [[i3 s3]|] eqn:E3; [|discriminate].
      cbv zeta in C. destruct t; injection C as <- <-; econstructor; eauto.
    - rewrite compile_app in C.
      destruct (compile e sc false (if t then s else CSt (S (labels s)) (tmpls s))) as [[i1 s1]|] eqn:E1; [|discriminate].
      destruct (args_fix args sc s1) as [[i2 s2]|] eqn:E2; [|discriminate].
      apply args_sound in E2; auto. apply IHe in E1.
      destruct t; injection C as <- <-.
      + cbn [app]. eapply CAppT; eauto.
      + econstructor; eauto.
    - cbn [compile] in C. cbv zeta in C.
      destruct (compile e1 sc false (if t then s else CSt (S (labels s)) (tmpls s))) as [[i1 s1]|] eqn:E1; [|discriminate].
      destruct (compile e2 sc false s1) as [[i2 s2]|] eqn:E2; [|discriminate].
      apply IHe1 in E1. apply IHe2 in E2.
      destruct t; injection C as <- <-.
      + cbn [app]. eapply CMvCallT; eauto.
      + econstructor; eauto.
    - cbn [compile] in C. destruct ids as [xs [r|]]; cbn [req rest] in C; [discriminate|].
      destruct (compile e1 sc false s) as [[i1 s1]|] eqn:E1; [|discriminate]. cbv zeta in C.
      destruct (compile e2 (rev xs ++ sc) t s1) as [[i2 s2]|] eqn:E2; [|discriminate].
      injection C as <- <-. econstructor; eauto.
    - destruct es as [|e es].
      + injection C as <- <-. constructor.
      + rewrite compile_mvvalues in C. destruct (args_fix (e :: es) sc s) as [[i1 s1]|] eqn:E1; [|discriminate].
        injection C as <- <-. constructor. eapply args_sound; eauto.
  Qed.
End Sound.
