(** Local-variable slots of compiled code: specification and proofs (C29). *)
From Coq Require Import ZArith NArith Bool Ascii String List Arith Lia.
From Verif Require Import Base Heap Ast FreeVars Code CodeProofs Compile CompRel CompProofs.
Import ListNotations.
Local Open Scope list_scope.

(** ** Specification *)

(** Does control go on with the next instruction? *)
Definition falls {T C} (i : instr T C) : bool :=
  match i with Iret | Iapply | Ido_apply | Ibrancha _ | Ido_arity_error | Ido_raise => false | _ => true end.

(** [at_ c pc k]: control can be at [pc] of [c], with a run-time environment of
    [k] slots made by this procedure ([0]: none yet).  The target of save-cc is
    where control returns to, with the environment saved there. *)
Inductive at_ (c : code) : nat -> nat -> Prop :=
| AtStart : at_ c 0 0
| AtNext pc k i :
    at_ c pc k -> nth_error (instrs_of c) pc = Some i -> falls i = true ->
    at_ c (S pc) (match i with Ipush_env n => n | _ => k end)
| AtJump pc k i t :
    at_ c pc k -> nth_error (instrs_of c) pc = Some i -> target i = Some t -> at_ c t k.

(** The slots an instruction addresses are below [k]; [free] cells are copied
    from the closure. *)
Definition uses_ok {T C} (free k : nat) (i : instr T C) : Prop :=
  match i with
  | Ilookup j | Ilookup_cell j | Ibind j _ | Irebind j => j < k
  | Ibind_values j n ids => List.length ids = n /\ j + n <= k
  | Iclosure_bind => free <= k
  | _ => True
  end.

Inductive slots_ok : nat -> code -> Prop :=
| SlotsOk free c :
    (forall pc k i, at_ c pc k -> nth_error (instrs_of c) pc = Some i -> uses_ok free k i) ->
    (forall pc c' n, nth_error (instrs_of c) pc = Some (Imake_closure c' n) -> slots_ok n c') ->
    slots_ok free c.

(** ** Annotated items *)
Definition outs {T C} (k : nat) (i : instr T C) : option nat :=
  if falls i then Some (match i with Ipush_env n => n | _ => k end) else None.

Notation aitem := (sitem * nat)%type.

Fixpoint flows (inp : option nat) (A : list aitem) (out : option nat) : Prop :=
  match A with
  | [] => inp = None \/ inp = out
  | (x, k) :: r =>
      (inp = None \/ inp = Some k) /\
      flows (match x with Lab _ => Some k | Ins i => outs k i end) r out
  end.

Lemma flows_weak A : forall k out, flows (Some k) A out -> flows None A out.
Proof. destruct A as [|[x k] r]; simpl; intuition. Qed.
Lemma flows_app A : forall B inp mid out, flows inp A mid -> flows mid B out -> flows inp (A ++ B) out.
Proof.
  induction A as [|[x k] r IH]; intros B inp mid out; simpl.
  - intros [->| ->] F; auto. destruct mid; auto. apply flows_weak in F. auto.
  - intros [H F] F2. split; auto. eapply IH; eauto.
Qed.
Lemma flows_mid A : forall x k B inp out, flows inp (A ++ (x, k) :: B) out ->
  flows (match x with Lab _ => Some k | Ins i => outs k i end) B out.
Proof. induction A as [|[y j] r IH]; simpl; intros x k B inp out [H F]; auto. eapply IH; eauto. Qed.

(** Control that comes in at size [k] finds an instruction at size [k]. *)
Lemma flows_next A : forall k, flows (Some k) A None ->
  exists pre i post, A = pre ++ (Ins i, k) :: post /\ ninstr (map fst pre) = 0.
Proof.
  induction A as [|[[l|i] j] r IH]; intros k; simpl.
  - intros [H|H]; discriminate.
  - intros [[H|[= <-]] F]; [discriminate|]. destruct (IH _ F) as [pre [i [post [-> N]]]].
    exists ((Lab l, k) :: pre), i, post. auto.
  - intros [[H|[= <-]] F]; [discriminate|]. exists [], i, r. auto.
Qed.

Record anno (free : nat) (A : list aitem) : Prop := Anno {
  an_flow : flows (Some 0) A None;
  an_uses : forall i k, In (Ins i, k) A -> uses_ok free k i;
  an_jump : forall i k l, In (Ins i, k) A -> target i = Some l -> In (Lab l, k) A }.

Lemma map_split_at {A B} (f : A -> B) (l : list A) p x q :
  map f l = p ++ x :: q -> exists p' x' q', l = p' ++ x' :: q' /\ map f p' = p /\ f x' = x /\ map f q' = q.
Proof.
  revert l. induction p as [|y r IH]; intros [|a l] E; simpl in E; try discriminate.
  - injection E as <- <-. exists [], a, l. auto.
  - injection E as <- E. destruct (IH _ E) as [p' [x' [q' [-> [<- [<- <-]]]]]]. exists (a :: p'), x', q'. auto.
Qed.

Lemma labs_unique (p1 q1 p2 q2 : list sitem) l :
  NoDup (labs (p1 ++ Lab l :: q1)) -> p1 ++ Lab l :: q1 = p2 ++ Lab l :: q2 -> p1 = p2 /\ q1 = q2.
Proof.
  revert p2. induction p1 as [|x r IH]; intros [|y p2] ND E; simpl in E.
  - injection E as <-. auto.
  - injection E as <- ->. simpl in ND. inversion ND; subst. exfalso. apply H1. rewrite labs_app. apply in_app_iff. right. left. auto.
  - injection E as -> E. simpl in ND. inversion ND; subst. exfalso. apply H1. rewrite labs_app. apply in_app_iff. right. left. auto.
  - injection E as <- E. destruct (IH p2) as [-> ->]; auto.
    destruct x; simpl in ND; auto. inversion ND; auto.
Qed.

Lemma target_uses (free k : nat) (i : instr nat nat) (i' : instr nat code) f g :
  retarget f g i = Some i' -> uses_ok free k i -> uses_ok free k i'.
Proof. destruct i; simpl; try (destruct (f t); simpl); try (destruct (g c); simpl); intros [= <-]; auto. Qed.
Lemma retarget_outs k (i : instr nat nat) (i' : instr nat code) f g :
  retarget f g i = Some i' -> outs k i' = outs k i.
Proof. destruct i; simpl; try (destruct (f t); simpl); try (destruct (g c); simpl); intros [= <-]; auto. Qed.

Theorem anno_slots free A T P' reloc ar c :
  anno free A -> assembled (map fst A) ->
  resolve_refs T (map fst A) = Some (P', reloc) -> write_code P' reloc ar = Some c ->
  clo slots_ok T (map fst A) -> slots_ok free c.
Proof.
  intros [FL US JU] [ND [BE EN]] R W CL.
  destruct (written_at _ _ _ _ _ _ R W ND BE EN) as [LEN [_ WR]].
  assert (AT : forall pc k, at_ c pc k -> exists pre i post, A = pre ++ (Ins i, k) :: post /\ ninstr (map fst pre) = pc).
  { induction 1 as [|pc k i' H IH N F|pc k i' t H IH N TG].
    - apply flows_next. exact FL.
    - destruct IH as [pre [i [post [EA EP]]]].
      destruct (WR (map fst pre) i (map fst post)) as [i2 [N2 RT]]; [rewrite EA, map_app; reflexivity|].
      rewrite EP, N in N2. injection N2 as <-. rewrite EA in FL.
      assert (F2 := flows_mid _ _ _ _ _ _ FL). simpl in F2. rewrite <- (retarget_outs _ _ _ _ _ RT) in F2.
      unfold outs in F2. rewrite F in F2. destruct (flows_next _ _ F2) as [p [j [q [-> N3]]]].
      exists (pre ++ (Ins i, k) :: p), j, q. rewrite EA, <- app_assoc. split; [reflexivity|].
      rewrite map_app, ninstr_app. simpl. lia.
    - destruct IH as [pre [i [post [EA EP]]]].
      destruct (WR (map fst pre) i (map fst post)) as [i2 [N2 RT]]; [rewrite EA, map_app; reflexivity|].
      rewrite EP, N in N2. injection N2 as <-.
      assert (X := retarget_target _ _ _ _ RT). destruct (target i) as [l|] eqn:TI; [|congruence].
      destruct X as [t' [X1 X2]]. rewrite TG in X2. injection X2 as <-.
      destruct (labpos_split _ _ _ _ X1) as [p1 [q1 [EQ [-> _]]]].
      assert (IL : In (Lab l, k) A) by (apply (JU i); auto; rewrite EA; apply in_app_iff; right; left; auto).
      destruct (in_split _ _ IL) as [p2 [q2 E2]].
      assert (E3 : map fst A = map fst p2 ++ Lab l :: map fst q2) by (rewrite E2, map_app; reflexivity).
      assert (E4 : p1 = map fst p2).
      { rewrite EQ in E3, ND. destruct (labs_unique _ _ _ _ _ ND E3); auto. }
      rewrite E2 in FL. assert (F2 := flows_mid _ _ _ _ _ _ FL). simpl in F2.
      destruct (flows_next _ _ F2) as [p [j [q [-> N3]]]].
      exists (p2 ++ (Lab l, k) :: p), j, q. rewrite E2, <- app_assoc. split; [reflexivity|].
      rewrite map_app, ninstr_app, E4. simpl. lia. }
  constructor.
  - intros pc k i' H N. destruct (AT _ _ H) as [pre [i [post [EA EP]]]].
    destruct (WR (map fst pre) i (map fst post)) as [i2 [N2 RT]]; [rewrite EA, map_app; reflexivity|].
    rewrite EP, N in N2. injection N2 as <-. eapply target_uses; eauto. apply US. rewrite EA. apply in_app_iff. right. left. auto.
  - intros pc c' n N.
    assert (LT : pc < ninstr (map fst A)) by (rewrite <- LEN; apply nth_error_Some; congruence).
    assert (SP : forall (its : list sitem) k, k < ninstr its -> exists p i q, its = p ++ Ins i :: q /\ ninstr p = k).
    { clear. induction its as [|[l|i] r IH]; simpl; intros k L; [lia| |].
      - destruct (IH _ L) as [p [i [q [-> N]]]]. exists (Lab l :: p), i, q. auto.
      - destruct k as [|k]; [exists [], i, r; auto|]. destruct (IH k) as [p [j [q [-> N]]]]; [lia|].
        exists (Ins i :: p), j, q. simpl. auto. }
    destruct (SP _ _ LT) as [p [i [q [EQ NP]]]]. destruct (WR _ _ _ EQ) as [i2 [N2 RT]].
    rewrite NP, N in N2. injection N2 as <-.
    assert (II : exists k, i = Imake_closure k n /\ template T k = Some c').
    { clear -RT. destruct i; simpl in RT; try (destruct (labpos _ _ _); discriminate); try discriminate.
      destruct (template T c) eqn:E; simpl in RT; [|discriminate]. injection RT as <- <-. exists c. auto. }
    destruct II as [k [-> TK]]. destruct (CL k n) as [c2 [T2 Q]]; [rewrite EQ; apply in_app_iff; right; left; auto|].
    congruence.
Qed.

(** ** Bodies use slots below the size of the environment *)
Definition body_ok (n : nat) (it : sitem) : Prop :=
  match it with
  | Lab _ => True
  | Ins i => uses_ok 0 n i /\ i <> Iclosure_bind /\ forall m, i <> Ipush_env m
  end.

Lemma memq_length x sc l : memq x sc = Some l -> 0 < List.length l <= List.length sc.
Proof.
  induction sc as [|y r IH]; simpl; [discriminate|]. destruct (ident_eqb y x).
  - intros [= <-]. simpl. lia.
  - intros H. apply IH in H. lia.
Qed.
Lemma scope_ref_lt sc x i : scope_ref sc x = Some i -> i < List.length sc.
Proof.
  unfold scope_ref. destruct (memq x sc) eqn:E; [|discriminate]. intros [= <-]. apply memq_length in E. lia.
Qed.
Lemma bind_args_ok xs : forall k sc its sc' n, bind_args k xs sc = (its, sc') -> List.length sc + List.length xs <= n ->
  Forall (body_ok n) its /\ List.length sc' = List.length sc + List.length xs.
Proof.
  induction xs as [|x r IH]; intros k sc its sc' n E LE; simpl in E, LE.
  - injection E as <- <-. simpl. split; [constructor|lia].
  - destruct (bind_args (S k) r (x :: sc)) as [i s] eqn:B. injection E as <- <-.
    destruct (IH _ _ _ _ n B) as [F L]; [simpl; lia|]. simpl in *. split; [|lia].
    constructor; [repeat split; auto; discriminate|]. constructor; [|auto]. repeat split; try discriminate. simpl. lia.
Qed.
Lemma bind_formals_ok fm sc its sc' n : bind_formals fm sc = (its, sc') ->
  List.length sc + List.length (formals_ids fm) <= n ->
  Forall (body_ok n) its /\ List.length sc' = List.length sc + List.length (formals_ids fm).
Proof.
  unfold bind_formals, formals_ids. destruct (bind_args 0 (req fm) sc) as [i s] eqn:B. intros E LE.
  rewrite app_length in *. destruct (bind_args_ok _ _ _ _ _ n B) as [F L]; [lia|].
  destruct (rest fm); simpl in *; injection E as <- <-; simpl; [|split; [auto|lia]].
  split; [|lia]. apply Forall_app. split; auto. repeat constructor; try discriminate. simpl. lia.
Qed.
Lemma fill_ok n sc : List.length sc <= n -> forall fvs idx, Forall (body_ok n) (fill_closure idx fvs sc).
Proof.
  intros LE. induction fvs as [|x r IH]; intros idx; simpl; [constructor|]. apply Forall_app. split.
  - unfold lookup_cell. destruct (scope_ref sc x) eqn:E; repeat constructor; try discriminate. simpl. apply scope_ref_lt in E. lia.
  - constructor; [repeat split; try discriminate|apply IH].
Qed.
Lemma body_tail n its t : Forall (body_ok n) its -> Forall (body_ok n) (with_tail_ret its t).
Proof. destruct t; simpl; auto. intros. apply Forall_app. split; auto. repeat constructor; discriminate. Qed.

Lemma bound_seq es : (fix seq (es : list expr) : list ident :=
    match es with [] => [] | x :: r => bound_vars x ++ seq r end) es = bound_vars_seq es.
Proof. induction es; simpl; auto. Qed.

Lemma bound_vars_begin es : bound_vars (EBegin es) = bound_vars_seq es.
Proof. apply bound_seq. Qed.
Lemma bound_vars_mvvalues es : bound_vars (EMvValues es) = bound_vars_seq es.
Proof. apply bound_seq. Qed.
Lemma bound_vars_app f es : bound_vars (EApp f es) = bound_vars f ++ bound_vars_seq es.
Proof. reflexivity. Qed.

Ltac body_tac := repeat (apply Forall_cons; [solve [repeat split; try discriminate; simpl; auto; lia]|]); try apply Forall_nil.

Definition size_ok (cls : list clause) (bounds : list (list ident)) : Prop :=
  Forall2 (fun c b => List.length (formals_ids (fst c)) + List.length (bound_vars_seq (snd c)) <= List.length b) cls bounds.

Lemma proc_size e cls bounds : proc_of e = Some (cls, bounds) -> size_ok cls bounds.
Proof.
  destruct e; try discriminate; simpl; intros [= <- <-].
  - constructor; [|constructor]. unfold lambda_bounds. simpl. rewrite app_length. lia.
  - unfold case_bounds, size_ok. match goal with |- Forall2 _ ?l _ => induction l as [|[fm b] r IH] end; constructor; auto. simpl. rewrite !app_length. lia.
Qed.

Lemma Forall_two {A} (P : A -> Prop) a b : Forall P a -> Forall P b -> Forall P (a ++ b).
Proof. intros. apply Forall_app. auto. Qed.

Definition tag (n : nat) (its : list sitem) : list aitem := map (fun x => (x, n)) its.
Lemma tag_fst n its : map fst (tag n its) = its.
Proof. unfold tag. rewrite map_map. apply map_id. Qed.
Lemma tag_app n a b : tag n (a ++ b) = tag n a ++ tag n b.
Proof. apply map_app. Qed.
Lemma tag_In n its x k : In (x, k) (tag n its) <-> In x its /\ k = n.
Proof.
  unfold tag. rewrite in_map_iff. split.
  - intros [y [[= <- <-] I]]. auto.
  - intros [I ->]. exists x. auto.
Qed.
Lemma tag_flows n its : Forall (body_ok n) its -> flows (Some n) (tag n its) (Some n) /\ flows None (tag n its) (Some n).
Proof.
  induction its as [|[l|i] r IH]; intros F; simpl.
  - tauto.
  - inversion F as [|? ? _ F']; subst. destruct (IH F') as [IH1 IH2]. auto.
  - inversion F as [|? ? BO F']; subst. simpl in BO. destruct BO as [U [N P]]. destruct (IH F') as [A B].
    assert (O : outs n i = None \/ outs n i = Some n).
    { unfold outs. destruct (falls i); auto. right. destruct i; auto. destruct (P n0 eq_refl). }
    destruct O as [-> | ->]; auto.
Qed.
Lemma tag_last n its : Forall (body_ok n) its -> last_ins its -> flows (Some n) (tag n its) None.
Proof.
  intros F [r [-> | ->]]; rewrite tag_app; apply Forall_app in F; destruct F as [F _];
    eapply flows_app; [apply tag_flows; exact F|simpl; auto|apply tag_flows; exact F|simpl; auto].
Qed.

Lemma comp_slots :
  (forall e sc t s its s', comp e sc t s its s' ->
     forall n, List.length sc + List.length (bound_vars e) <= n -> Forall (body_ok n) its) /\
  (forall es sc t s its s', cseq es sc t s its s' ->
     forall n, List.length sc + List.length (bound_vars_seq es) <= n -> Forall (body_ok n) its) /\
  (forall es sc s its s', cargs es sc s its s' ->
     forall n, List.length sc + List.length (bound_vars_seq es) <= n -> Forall (body_ok n) its) /\
  (forall cls bounds fvs label ar s its label' ar' s',
     cclauses cls bounds fvs label ar s its label' ar' s' ->
     size_ok cls bounds -> (forall l, label = Some l -> l < labels s) ->
     exists A, map fst A = its /\
       (forall inp, inp = None \/ inp = Some 0 /\ cls <> [] -> flows inp A None) /\
       (forall i k, In (Ins i, k) A -> uses_ok (List.length fvs) k i) /\
       (forall i k l, In (Ins i, k) A -> target i = Some l -> In (Lab l, k) A \/ (label' = Some l /\ k = 0)) /\
       (forall l, label = Some l -> In (Lab l, 0) A \/ label' = Some l)).
Proof.
  destruct comp_good as [_ [GS _]]. destruct comp_shape as [_ [SS _]].
  apply comp_all; intros;
    try apply body_tail; try rewrite ?bound_vars_app, ?bound_vars_mvvalues, ?bound_vars_begin in *;
    try (match goal with H : _ + List.length _ <= _ |- _ => simpl in H; rewrite ?app_length in H end;
         repeat apply Forall_two; body_tac;
         try match goal with H : forall n, _ -> Forall (body_ok n) ?i |- Forall _ ?i => apply H; simpl; rewrite ?app_length, ?rev_length; lia end; fail).
  - (* variable *) constructor; [|constructor]. destruct (scope_ref sc x) eqn:E; repeat split; try discriminate.
    simpl in *. apply scope_ref_lt in E. lia.
  - (* set! *) apply Forall_two; [apply H0; simpl in *; lia|].
    constructor; [|constructor]. destruct (scope_ref sc x) eqn:E; repeat split; try discriminate.
    simpl in *. apply scope_ref_lt in E. lia.
  - (* procedure *) apply Forall_two; [body_tac|]. unfold closure_body. destruct (free_vars e); [constructor|].
    apply Forall_two; [body_tac|]. apply Forall_two; [|body_tac]. apply fill_ok. lia.
  - (* mv-let *) simpl in H3. unfold formals_ids in H3. simpl in H3. rewrite !app_length in H3. simpl in H3.
    apply Forall_two; [apply H0; lia|]. apply Forall_two; [body_tac|]. apply H2. rewrite app_length, rev_length. lia.
  - exists []. repeat split; simpl; auto; try contradiction. intros inp [->|[_ N]]; auto. congruence.
  - (* a clause *)
    inversion H5 as [|? b ? bs SZ SZ' E1 E2]; subst. simpl in SZ. simpl hd in *. simpl tl in *.
    assert (SH := SS _ _ _ _ _ _ H1). assert (G := GS _ _ _ _ _ _ H1). destruct SH as [_ LI]. specialize (LI eq_refl).
    destruct (H4 SZ') as [A2 [MA [FL [US [JU LB]]]]].
    { intros l [= <-]. apply g_labels in G. simpl in G. lia. }
    set (N := List.length fvs + List.length b) in *.
    assert (LF : List.length (fvs_scope fvs) = List.length fvs) by apply rev_length.
    assert (BF := plain_bind_formals _ _ _ _ H0).
    destruct (bind_formals_ok _ _ _ _ N H0) as [FB LS]; [lia|].
    assert (F1 : Forall (body_ok N) its1) by (apply H2; lia).
    assert (F2 : Forall (body_ok N) (binds ++ [ins Iclear_frame] ++ its1)).
    { apply Forall_two; auto. apply Forall_two; auto. body_tac. }
    exists ([(clause_start label, 0); (clause_branch fm (labels s), 0); (ins (Ipush_env N), 0); (ins Iclosure_bind, N)]
              ++ tag N (binds ++ [ins Iclear_frame] ++ its1) ++ A2).
    split; [|split; [|split; [|split]]].
    + rewrite !map_app, tag_fst, MA. simpl. rewrite <- !app_assoc. reflexivity.
    + intros inp HI.
      assert (REST : flows (Some N) (tag N (binds ++ [ins Iclear_frame] ++ its1) ++ A2) None).
      { eapply flows_app; [apply tag_last; auto; apply last_app, last_app; auto|]. apply FL. auto. }
      assert (HI' : inp = None \/ inp = Some 0) by tauto.
      unfold clause_start, clause_branch. destruct label, (has_rest fm); simpl; auto 10.
    + intros i k I. rewrite !in_app_iff in I. destruct I as [I|[I|I]]; auto.
      * simpl in I. destruct I as [[= E1 <-]|[[= E1 <-]|[[= <- <-]|[[= <- <-]|[]]]]].
        -- unfold clause_start in E1. destruct label; [discriminate|]. injection E1 as <-. exact I.
        -- subst i. destruct (has_rest fm); exact I.
        -- exact I.
        -- simpl. unfold N. lia.
      * apply tag_In in I. destruct I as [I ->]. rewrite Forall_forall in F2. apply F2 in I. destruct I as [I [I2 I3]].
        destruct i; simpl in *; auto. congruence.
    + intros i k l I T. rewrite !in_app_iff in I |- *. destruct I as [I|[I|I]].
      * simpl in I. destruct I as [[= E1 <-]|[[= E1 <-]|[[= <- <-]|[[= <- <-]|[]]]]]; try discriminate.
        -- unfold clause_start in E1. destruct label; [discriminate|]. injection E1 as <-. discriminate.
        -- assert (l = labels s) as ->.
           { subst i. destruct (has_rest fm); simpl in T; congruence. }
           destruct (LB _ eq_refl); auto.
      * apply tag_In in I. destruct I as [I ->]. left. right. left. apply tag_In. split; auto.
        rewrite !in_app_iff in I |- *. destruct I as [I|[[I|[]]|I]].
        -- red in BF. rewrite Forall_forall in BF. apply BF in I. destruct I. congruence.
        -- injection I as <-. discriminate.
        -- right. right. apply g_refs in G. destruct (G _ I) as [G1 _]. specialize (G1 _ T).
           clear -G1. induction its1 as [|[l'|j] r IH]; simpl in *; auto. destruct G1 as [->|G1]; auto.
      * destruct (JU _ _ _ I T); auto.
    + intros l ->. left. apply in_app_iff. left. left. reflexivity.
Qed.

Theorem proc_slots e cls bounds s its l ar s1 its' reloc c :
  proc_of e = Some (cls, bounds) ->
  cclauses cls bounds (free_vars e) None ANull s its (Some l) ar s1 ->
  clo slots_ok (tmpls s1) its ->
  resolve_refs (tmpls s1) (its ++ [Lab l; ins Ido_arity_error]) = Some (its', reloc) ->
  write_code its' reloc ar = Some c -> slots_ok (List.length (free_vars e)) c.
Proof.
  intros PO CC CL R W. assert (NE := proc_cls _ _ _ _ _ _ _ _ _ PO CC).
  destruct (clauses_assembled _ _ _ _ _ _ _ _ NE CC) as [AS _].
  destruct comp_slots as [_ [_ [_ CS]]]. destruct (CS _ _ _ _ _ _ _ _ _ _ CC (proc_size _ _ _ PO)) as [A [MA [FL [US [JU _]]]]]; [discriminate|].
  set (B := A ++ [(Lab l, 0); (ins Ido_arity_error, 0)]).
  assert (MB : map fst B = its ++ [Lab l; ins Ido_arity_error]) by (unfold B; rewrite map_app, MA; reflexivity).
  apply (anno_slots _ B (tmpls s1) its' reloc ar); try rewrite MB; auto.
  - constructor.
    + eapply flows_app; [apply FL; auto|]. simpl. auto.
    + intros i k I. apply in_app_iff in I. destruct I as [I|[[= E]|[[= <- <-]|[]]]]; auto. exact I.
    + intros i k l' I T. apply in_app_iff. apply in_app_iff in I. destruct I as [I|[[= E]|[[= <- <-]|[]]]]; [|discriminate].
      destruct (JU _ _ _ I T) as [J|[[= ->] ->]]; auto. right. left. reflexivity.
  - apply clo_app; auto. apply clo_cons; [discriminate|]. apply clo_cons; [discriminate|]. apply clo_nil.
Qed.

Theorem top_slots e c : compile_top e = Some c -> slots_ok 0 c.
Proof.
  intros H. destruct (top_inv _ _ H) as [its [s [P' [reloc [C [R W]]]]]].
  destruct (top_assembled _ _ _ C) as [AS _].
  assert (CL : clo slots_ok (tmpls s) its).
  { destruct (comp_clo slots_ok proc_slots) as [CE _]. eapply CE; eauto. }
  destruct comp_shape as [SE _]. destruct (SE _ _ _ _ _ _ C) as [_ LI]. specialize (LI eq_refl).
  destruct comp_good as [GE _]. assert (G := g_refs _ _ _ (GE _ _ _ _ _ _ C)).
  destruct comp_slots as [CS _]. assert (F := CS _ _ _ _ _ _ C (List.length (bound_vars e)) ltac:(simpl; auto)).
  set (n := List.length (bound_vars e)) in *.
  assert (TG : forall i k l, In (Ins i, k) (tag n its) -> target i = Some l -> In (Lab l, k) (tag n its)).
  { intros i k l I T. apply tag_In in I. destruct I as [I ->]. apply tag_In. split; auto.
    destruct (G _ I) as [G1 _]. specialize (G1 _ T). clear -G1. induction its as [|[l'|j] r IH]; simpl in *; auto. destruct G1 as [->|G1]; auto. }
  assert (US : forall i k, In (Ins i, k) (tag n its) -> uses_ok 0 k i).
  { intros i k I. apply tag_In in I. destruct I as [I ->]. rewrite Forall_forall in F. apply F in I. apply I. }
  set (B := match bound_vars e with [] => tag n its | _ => (ins (Ipush_env n), 0) :: tag n its end).
  assert (MB : map fst B = top_items e its).
  { unfold B, top_items, n. destruct (bound_vars e); simpl; rewrite tag_fst; reflexivity. }
  apply (anno_slots _ B (tmpls s) P' reloc (AFix 0)); try rewrite MB; auto.
  - assert (FT := tag_last _ _ F LI).
    unfold B. destruct (bound_vars e) as [|x r] eqn:EB; constructor; auto.
    + simpl. split; auto.
    + intros i k [[= <- <-]|I]; [exact I|auto].
    + intros i k l [[= <- <-]|I]; [discriminate|]. right. eapply TG; eauto.
  - unfold top_items. destruct (bound_vars e); auto. apply clo_cons; auto. discriminate.
Qed.
