(** C78: a program and the library do not change each other's global variables. *)
From Coq Require Import ZArith NArith Bool Ascii String List Arith Lia.
From Verif Require Import Base Heap HeapM Ast Sem Vm SimThm OptProofs OptProg OptThm EvalPrim EvalPrimThm EvalRun InitProofs InitThm FrameProofs.
Import ListNotations.
Local Open Scope list_scope.

(** * Specification *)

(** The expression [e] evaluated with the top-level environment number [k] (eval.c:268-332
    look names up in tc_tenv): its global variables are those of that environment, its
    local variables, listed in [sc] and bound by its forms, are not renamed.  The name of
    the variable y of the environment k is [qual k y] as in C76 (EvalPrim.v). *)
Definition name_in (k : nat) (sc : list ident) (x : ident) : ident := if in_dec ident_dec x sc then x else qual k x.
Fixpoint in_environment (k : nat) (sc : list ident) (e : expr) : expr :=
  match e with
  | EConst v => EConst v
  | EUnbound => EUnbound
  | EVar x => EVar (name_in k sc x)
  | EDefine ids e => EDefine (map (qual k) ids) (in_environment k sc e)
  | ESet x e => ESet (name_in k sc x) (in_environment k sc e)
  | ELam fm body => ELam fm (map (in_environment k (params fm ++ sc)) body)
  | ECase cls => ECase (map (fun c => (fst c, map (in_environment k (params (fst c) ++ sc)) (snd c))) cls)
  | EBegin es => EBegin (map (in_environment k sc) es)
  | EIf a b c => EIf (in_environment k sc a) (in_environment k sc b) (in_environment k sc c)
  | EApp f es => EApp (in_environment k sc f) (map (in_environment k sc) es)
  | ELet bs body => ELet (map (fun b => (fst b, in_environment k sc (snd b))) bs) (map (in_environment k (bound_by bs ++ sc)) body)
  | ELetrec bs body => ELetrec (map (fun b => (fst b, in_environment k (bound_by bs ++ sc) (snd b))) bs) (map (in_environment k (bound_by bs ++ sc)) body)
  | EValues es => EValues (map (in_environment k sc) es)
  | ECwv a b => ECwv (in_environment k sc a) (in_environment k sc b)
  | EMvCall a b => EMvCall (in_environment k sc a) (in_environment k sc b)
  | EMvLet a fm b => EMvLet (in_environment k sc a) fm (in_environment k (params fm ++ sc) b)
  | EMvValues es => EMvValues (map (in_environment k sc) es)
  end.

(** The program: expressions, each with the number of the environment it is evaluated in. *)
Definition program := list (nat * expr).
Definition forms (p : program) : list expr := map (fun ke => in_environment (fst ke) [] (snd ke)) p.

(** Creating environments, with the numbers [ks], as copies of the base environment, number 0:
    system.c:118-128 (load_prelude) and env.c:28-62 (top_env_copy).  Every binding of the
    base environment, in a new cell.  The flag of the copied bindings is left out: nothing reads it. *)
Definition with_copies (ks : list nat) (s : store) : store := Store (heap_of s) (procs_of s) (cells_of s)
  (glob_of s ++ List.concat (map (fun k => map (fun b => (qual k (fst b), snd b)) (glob_of s)) ks)).

(** * Proofs *)
Lemma in_params_app (z : ident) xs sc (n : ~ In z xs) : In z (xs ++ sc) -> In z sc.
Proof. intros H. apply in_app_iff in H. tauto. Qed.
Lemma out_app (w : ident) xs sc : ~ In w (xs ++ sc) -> ~ In w xs /\ ~ In w sc.
Proof. rewrite in_app_iff. tauto. Qed.

Lemma bound_map f bs : bound_by (map (fun b : list ident * expr => (fst b, f (snd b))) bs) = bound_by bs.
Proof. unfold bound_by. rewrite map_map. simpl. auto. Qed.

Lemma set_named k z e : forall sc, occurs_free (is_set z) z (in_environment k sc e) ->
  In z sc \/ exists w, z = qual k w /\ ~ In w sc /\ occurs_free (is_set w) w e.
Proof.
  assert (NS : forall p, (forall y r, p <> ESet y r) -> ~ is_set z p) by (intros p H [r ->]; eapply H; eauto).
  Ltac noset NS := match goal with H : is_set _ _ |- _ => exfalso; revert H; apply NS; discriminate end.
  Ltac use IH := match type of IH with
    | forall sc, occurs_free _ _ (in_environment _ sc ?e) -> _ =>
        match goal with H : occurs_free _ _ (in_environment _ _ e) |- _ =>
          let w := fresh "w" in let N := fresh "N" in let O := fresh "O" in
          destruct (IH _ H) as [?|(w & -> & N & O)];
          [ first [solve [auto] | left; eapply in_params_app; eauto; fail]
          | right; exists w; split; [auto|];
            first [ apply out_app in N; destruct N | idtac ]; (split; [solve [auto]|]);
            first [ solve [econstructor; eauto; simpl; auto] | solve [econstructor; [|eassumption]; simpl; auto] ] ]
        end
    end.
  induction e using expr_ind'; intros sc H'; simpl in H'; inversion H'; subst; try noset NS;
    repeat match goal with H : In _ (map _ _) |- _ => apply in_map_iff in H as (? & ? & ?); subst
      | H : (_, _) = (_, _) |- _ => injection H as ? ?; subst end; rewrite ?bound_map in *.
  all: repeat match goal with H : In _ [] |- _ => destruct H | H : In _ (_ :: _) |- _ => destruct H as [H|H]; [subst|] end;
    repeat match goal with H : In _ (map _ _) |- _ => apply in_map_iff in H as (? & ? & ?); subst end.
  all: repeat match goal with b : (list ident * expr)%type |- _ => destruct b; simpl in * end.
  all: repeat match goal with F : Forall _ ?l, I : In ?y ?l |- _ => let Q := fresh "IH" in assert (Q := proj1 (Forall_forall _ _) F _ I); clear F; simpl in Q end.
  all: try (match goal with IH : (forall sc, occurs_free _ _ _ -> _) |- _ => use IH end; fail).
  - (* ESet *) match goal with H : is_set _ _ |- _ => destruct H as [rhs Q] end. injection Q as Q _. unfold name_in in Q. destruct (in_dec ident_dec x sc); [left; congruence|].
    right. exists x. split; auto. split; auto. apply OfHere. exists e. auto.
  - (* ECase *) destruct x as [fm body]. simpl in *. use IH0.
Qed.
Lemma define_named k z e : forall sc p, part_of p (in_environment k sc e) -> is_define z p ->
  exists w, z = qual k w /\ exists q, part_of q e /\ is_define w q.
Proof.
  assert (ND : forall p, (forall y r, p <> EDefine y r) -> ~ is_define z p) by (intros p H (ids & r & -> & _); eapply H; eauto).
  induction e using expr_ind'; intros sc p P D; simpl in P; inversion P; subst;
    try (exfalso; revert D; apply ND; discriminate);
    repeat match goal with H : In _ (map _ _) |- _ => apply in_map_iff in H as (? & ? & ?); subst
      | H : (_, _) = (_, _) |- _ => injection H as ? ?; subst end.
  all: repeat match goal with H : In _ [] |- _ => destruct H | H : In _ (_ :: _) |- _ => destruct H as [H|H]; [subst|] end;
    repeat match goal with H : In _ (map _ _) |- _ => apply in_map_iff in H as (? & ? & ?); subst end.
  all: repeat match goal with b : (list ident * expr)%type |- _ => destruct b; simpl in * end.
  all: repeat match goal with F : Forall _ ?l, I : In ?y ?l |- _ => let Q := fresh "IH" in assert (Q := proj1 (Forall_forall _ _) F _ I); clear F; simpl in Q end.
  1: { destruct D as (i & rhs & Q & I). injection Q as <- _. apply in_map_iff in I as (w & <- & I). exists w. split; auto. exists (EDefine ids e). split; [constructor|]. exists ids, e. auto. }
  all: match goal with IH : (forall sc p, part_of p (in_environment _ sc ?e) -> _), H : part_of _ (in_environment _ _ ?e) |- _ =>
    destruct (IH _ _ H D) as (w & -> & q & Q1 & Q2); exists w; split; auto; exists q; split; auto;
    try match goal with c : (formals * list expr)%type |- _ => destruct c; simpl in * end;
    solve [econstructor; eauto; simpl; auto | econstructor; [|eassumption]; simpl; auto] end.
Qed.
Lemma assigns_named k z e : assigns z (in_environment k [] e) -> exists w, z = qual k w /\ assigns w e.
Proof.
  intros [H|(p & P & D)].
  - destruct (set_named _ _ _ _ H) as [[]|(w & -> & _ & O)]. exists w. split; auto. left. auto.
  - destruct (define_named _ _ _ _ _ P D) as (w & -> & Q). exists w. split; auto. right. auto.
Qed.
Lemma not_plain k w : ~ plain (qual (S k) w).
Proof. simpl. congruence. Qed.

Lemma strict_quiet x e : ~ assigns x e -> quiet x true [] e.
Proof. intros N. split; [intros H; destruct N; left; exact H|intros p P D; apply N; right; eauto]. Qed.
Lemma lax_quiet x e : ~ assigns_later x e -> quiet x false [] e.
Proof. intros N. split; [intros H; destruct N; left; exact H|]. intros p P (D1 & q & D2 & D3). apply N. right. exists p, q. auto. Qed.

Lemma strict_program prim x s es rs s1 : meaning prim s es rs s1 -> quiet_store x s -> (forall e, In e es -> ~ assigns x e) -> same x s s1.
Proof.
  intros M. induction M as [s|s e es vs s1 rs s2 E M IH|s e es y s1 E]; intros Q N; [apply same_refl|..].
  - destruct (proj1 (frame_all prim x) _ _ _ _ _ _ E true Q) as [Q1 R1]; [apply strict_quiet; apply N; left; auto|].
    eapply same_trans; [apply R1; auto|]. apply IH; auto. intros; apply N; right; auto.
  - destruct (proj1 (frame_all prim x) _ _ _ _ _ _ E true Q) as [Q1 R1]; [apply strict_quiet; apply N; left; auto|]. auto.
Qed.
Lemma lax_program prim x s es rs s1 : meaning prim s es rs s1 -> quiet_store x s -> (forall e, In e es -> ~ assigns_later x e) -> quiet_store x s1.
Proof.
  intros M. induction M as [s|s e es vs s1 rs s2 E M IH|s e es y s1 E]; intros Q N; auto.
  - destruct (proj1 (frame_all prim x) _ _ _ _ _ _ E false Q) as [Q1 R1]; [apply lax_quiet; apply N; left; auto|].
    apply IH; auto. intros; apply N; right; auto.
  - destruct (proj1 (frame_all prim x) _ _ _ _ _ _ E false Q) as [Q1 R1]; [apply lax_quiet; apply N; left; auto|]. auto.
Qed.
Lemma initial_quiet x s : initial s -> quiet_store x s.
Proof. intros I l cls r H. exfalso. eapply (in_procs _ I); eauto. Qed.

(** * The theorems *)

(** A global variable that no expression of the program assigns has its value at the
    end of the program, whatever procedures are called, stored or passed on the way and
    also when the program ends with an error. *)
Theorem C78_only_assigned :
  forall prim s es rs s1 x,
    initial s -> meaning prim s es rs s1 -> (forall e, In e es -> ~ assigns x e) ->
    glob_ref x (glob_of s1) = glob_ref x (glob_of s).
Proof. intros prim s es rs s1 x I M N. apply (strict_program prim x s es rs s1 M); auto using initial_quiet. Qed.

(** The library is loaded in the base environment, then a program is run in copies of
    it.  Whatever the program defines or assigns, a variable of the library that no
    procedure of the library assigns keeps its value: this is what the procedures of
    the library see. *)
Theorem C78_library_kept :
  forall prim s lib rs0 s0 ks prog rs1 s1 x,
    initial s -> meaning prim s lib rs0 s0 ->
    plain x -> (forall e, In e lib -> ~ assigns_later x e) ->
    (forall k e, In (k, e) prog -> k <> 0) ->
    meaning prim (with_copies ks s0) (forms prog) rs1 s1 ->
    glob_ref x (glob_of s1) = glob_ref x (glob_of (with_copies ks s0)).
Proof.
  intros prim s lib rs0 s0 ks prog rs1 s1 x I M PL NL NK M1.
  apply (strict_program prim x _ _ _ _ M1).
  - apply (quiet_procs x s0); auto. eapply lax_program; eauto using initial_quiet.
  - intros e J A. apply in_map_iff in J as ([k e'] & <- & J). simpl in A. apply assigns_named in A as (w & -> & _).
    destruct k as [|k]; [eapply NK; eauto|]. apply (not_plain _ _ PL).
Qed.

(** Conversely a variable of the program changes only when the program assigns it in the
    same environment: neither the library nor code evaluated in other environments does. *)
Theorem C78_program_kept :
  forall prim s lib rs0 s0 ks prog rs1 s1 k y,
    initial s -> meaning prim s lib rs0 s0 ->
    (forall z e, In e lib -> assigns_later z e -> plain z) ->
    (forall j z e, In (j, e) prog -> assigns z e -> plain z) ->
    k <> 0 -> plain y -> (forall e, In (k, e) prog -> ~ assigns y e) ->
    meaning prim (with_copies ks s0) (forms prog) rs1 s1 ->
    glob_ref (qual k y) (glob_of s1) = glob_ref (qual k y) (glob_of (with_copies ks s0)).
Proof.
  intros prim s lib rs0 s0 ks prog rs1 s1 k y I M PL PP NK PY NA M1. destruct k as [|k]; [destruct NK; auto|].
  apply (strict_program prim _ _ _ _ _ M1).
  - apply (quiet_procs _ s0); auto. eapply lax_program; eauto using initial_quiet. intros e J A. apply (not_plain k y). eauto.
  - intros e J A. apply in_map_iff in J as ([j e'] & <- & J). simpl in A. apply assigns_named in A as (w & Q & A).
    destruct (qual_inj (S k) j y w) as [<- <-]; eauto. apply (NA e'); auto.
Qed.

Lemma glob_ref_app x g h : glob_ref x (g ++ h) = match glob_ref x g with Some v => Some v | None => glob_ref x h end.
Proof. induction g as [|[y v] g IH]; simpl; auto. destruct (ident_eqb y x); auto. Qed.
Lemma glob_ref_qual k g x : (forall y v, In (y, v) g -> plain y) -> plain x ->
  forall j, glob_ref (qual j x) (map (fun b => (qual k (fst b), snd b)) g) = if Nat.eqb j k then glob_ref x g else None.
Proof.
  intros PG PX j. induction g as [|[y v] g IH]; simpl; [destruct (j =? k); auto|].
  rewrite IH by (intros; eapply PG; right; eauto). destruct (ident_eqb_spec (qual k y) (qual j x)) as [Q|Q].
  - destruct (qual_inj k j y x) as [E1 E2]; auto; [eapply PG; left; eauto|]. subst. rewrite Nat.eqb_refl, ident_eqb_refl. auto.
  - destruct (Nat.eqb_spec j k) as [E|]; auto. destruct (ident_eqb_spec y x); congruence.
Qed.
Lemma glob_none (P : ident -> Prop) g x : (forall y v, In (y, v) g -> P y) -> ~ P x -> glob_ref x g = None.
Proof.
  induction g as [|[y v] g IH]; intros H N; simpl; auto. destruct (ident_eqb_spec y x) as [->|]; [destruct N; eapply H; left; eauto|].
  apply IH; auto. intros; eapply H; right; eauto.
Qed.
(** When the environments have been created, each of them gives every name the value it
    has in the library, and the library's variables are as before. *)
Theorem C78_copy_same :
  forall ks s k x, (forall y v, In (y, v) (glob_of s) -> plain y) -> plain x -> k = 0 \/ In k ks -> ~ In 0 ks ->
    glob_ref (qual k x) (glob_of (with_copies ks s)) = glob_ref x (glob_of s).
Proof.
  intros ks s k x PG PX K N0. simpl. rewrite glob_ref_app. destruct K as [->|K].
  - simpl. destruct (glob_ref x (glob_of s)) eqn:G; auto. apply (glob_none (fun y => ~ plain y)); [|auto].
    intros y v J. apply in_concat in J as (l & J1 & J2). apply in_map_iff in J1 as (k & <- & J1). apply in_map_iff in J2 as ([z w] & Q & J2). injection Q as <- <-.
    destruct k as [|k]; [destruct N0; auto|]. apply not_plain.
  - rewrite (glob_none plain); auto; [|destruct k; [destruct N0; auto|apply not_plain]].
    clear N0. induction ks as [|j ks IH]; simpl in *; [destruct K|]. rewrite glob_ref_app, glob_ref_qual by auto.
    destruct (Nat.eqb_spec k j) as [->|NE].
    + destruct (glob_ref x (glob_of s)) eqn:G; auto. destruct (in_dec Nat.eq_dec j ks) as [J|J]; [rewrite IH; auto|].
      apply (glob_none (fun y => y <> qual j x)); [|auto]. intros y v V ->. apply in_concat in V as (l & V1 & V2). apply in_map_iff in V1 as (i & <- & V1).
      apply in_map_iff in V2 as ([z w] & Q & V2). injection Q as Q <-. destruct (qual_inj i j z x) as [E1 _]; eauto; congruence.
    + apply IH. destruct K; congruence.
Qed.

(** ** Examples *)
Definition idh : ident := Id "helper".
Definition idp : ident := Id "proc".
(** (define-values (helper) (lambda () 1)) (define-values (proc) (lambda () (helper))) *)
Definition ex_lib : list expr := [EDefine [idh] (lam [] [num 1]); EDefine [idp] (lam [] [EApp (EVar idh) []])].
(** (define-values (helper) (lambda () 2)) (helper) (proc) (set! proc 5) proc,
    then, in another environment, (proc) *)
Definition ex_prog : program :=
  [(1, EDefine [idh] (lam [] [num 2])); (1, EApp (EVar idh) []); (1, EApp (EVar idp) []); (1, ESet idp (num 5)); (1, EVar idp); (2, EApp (EVar idp) [])].

(** A check: neither set! nor define-values anywhere. *)
Fixpoint pure (e : expr) : bool :=
  match e with
  | EConst _ | EUnbound | EVar _ => true
  | EDefine _ _ | ESet _ _ => false
  | ELam _ body => forallb pure body
  | ECase cls => forallb (fun c => forallb pure (snd c)) cls
  | EBegin es | EValues es | EMvValues es => forallb pure es
  | EIf a b c => pure a && pure b && pure c
  | EApp f es => pure f && forallb pure es
  | ELet bs body | ELetrec bs body => forallb (fun b => pure (snd b)) bs && forallb pure body
  | ECwv a b | EMvCall a b | EMvLet a _ b => pure a && pure b
  end.
Lemma pure_part p e : part_of p e -> pure e = true -> pure p = true.
Proof.
  intros H. induction H; simpl; intros S0; auto; try discriminate;
    repeat match goal with H : andb _ _ = true |- _ => apply andb_true_iff in H as [? ?] end;
    repeat match goal with
      | H : forallb _ ?l = true, I : In ?x ?l |- _ => rewrite forallb_forall in H; specialize (H _ I); simpl in H
      end; auto; simpl in *; intuition (subst; auto).
  match goal with F : forallb _ _ = true |- _ => rewrite forallb_forall in F; auto end.
Qed.
Lemma occurs_part B x e : occurs_free B x e -> exists p, part_of p e /\ B p.
Proof.
  intros H. induction H; [exists e; split; [constructor|auto]|..];
    match goal with H : exists p, _ |- _ => destruct H as (p & P & Q); exists p; split; auto end;
    try (econstructor; eauto; fail); eapply PaMvLet; eauto; simpl; auto.
Qed.
Lemma pure_never x ids e : pure e = true -> ~ assigns_later x (EDefine ids e).
Proof.
  intros P [A|(p & q & A1 & A2 & A3 & (i & r & -> & _))].
  - apply occurs_part in A as (p & A1 & A2 & A3). apply occurs_part in A3 as (q & A3 & (r & ->)). inversion A1; subst; [destruct A2|].
    apply (pure_part _ _ (part_trans _ _ _ A3 H1)) in P. discriminate.
  - inversion A1; subst; [destruct A2|]. apply (pure_part _ _ (part_trans _ _ _ A3 H1)) in P. discriminate.
Qed.
Lemma ex_lib_never x e : In e ex_lib -> ~ assigns_later x e.
Proof. intros [<-|[<-|[]]]; apply pure_never; reflexivity. Qed.

(** The program replaces helper: it sees its own, the procedure proc of the library goes
    on calling the library's. *)
Example C78_library_kept_met :
  initial o_store /\ (forall x e, In e ex_lib -> ~ assigns_later x e) /\ plain idh /\ (forall k e, In (k, e) ex_prog -> k <> 0) /\
  exists s0 s1, meaning o_prim o_store ex_lib [RVals [VVoid]; RVals [VVoid]] s0 /\
    meaning o_prim (with_copies [1; 2] s0) (forms ex_prog)
      [RVals [VVoid]; RVals [VFix 2]; RVals [VFix 1]; RVals [VFix 5]; RVals [VFix 5]; RVals [VFix 1]] s1 /\
    glob_ref idh (glob_of s0) <> None /\ glob_ref (qual 1 idh) (glob_of s1) <> glob_ref idh (glob_of s1).
Proof.
  split; [apply ready_initial, boot_ready; apply (proj1 C32_program_conditions)|]. split; [apply ex_lib_never|]. split; [discriminate|]. split.
  { intros k e I. simpl in I. repeat destruct I as [I|I]; try injection I as <- _; try destruct I; lia. }
  eexists. eexists. split; [eapply (run_prog_ok o_prim 100); vm_compute; reflexivity|].
  split; [eapply (run_prog_ok o_prim 100); vm_compute; reflexivity|]. split; vm_compute; discriminate.
Qed.
(** In the base environment itself the same definition does change what proc returns: the
    copy is what protects the library. *)
Example C78_without_copy :
  exists s1, meaning o_prim o_store (ex_lib ++ [EDefine [idh] (lam [] [num 2]); EApp (EVar idp) []])
    [RVals [VVoid]; RVals [VVoid]; RVals [VVoid]; RVals [VFix 2]] s1.
Proof. eexists. eapply (run_prog_ok o_prim 100). vm_compute. reflexivity. Qed.
(** A procedure that assigns its own global variable: calling it changes the variable,
    whoever calls it, so the condition on the library's procedures is needed.
    (define-values (helper) 0) (define-values (proc) (lambda () (set! helper 7))) *)
Example C78_later_needed :
  exists s0 s1, meaning o_prim o_store [EDefine [idh] (num 0); EDefine [idp] (lam [] [ESet idh (num 7)])] [RVals [VVoid]; RVals [VVoid]] s0 /\
    meaning o_prim (with_copies [1] s0) (forms [(1, EApp (EVar idp) [])]) [RVals [VVoid]] s1 /\
    glob_ref idh (glob_of s0) = Some (VFix 0) /\ glob_ref idh (glob_of s1) = Some (VFix 7) /\ glob_ref (qual 1 idh) (glob_of s1) = Some (VFix 0).
Proof.
  eexists. eexists. split; [eapply (run_prog_ok o_prim 100); vm_compute; reflexivity|].
  split; [eapply (run_prog_ok o_prim 100); vm_compute; reflexivity|]. repeat split.
Qed.

Print Assumptions C78_only_assigned.
Print Assumptions C78_library_kept.
Print Assumptions C78_program_kept.
Print Assumptions C78_copy_same.
