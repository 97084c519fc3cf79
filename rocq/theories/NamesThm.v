(** C72: the names of procedures. *)
From Coq Require Import ZArith NArith Bool Ascii String List Arith Lia.
From Verif Require Import Base Heap HeapM Ast Code Sem Vm Compile CompRel CompProofs CompThm Opt OptThm SimThm Decimal Names.
Import ListNotations.
Local Open Scope list_scope.
Local Open Scope nat_scope.

(** ** The specification: what happened to procedures, and the name that follows *)

(** The procedure at [l] was the value of a binding of the variable [x], or it was
    renamed to [x]. *)
Inductive event : Type :=
| Bound (x : val) (l : nat)
| Renamed (x : val) (l : nat).

Fixpoint first_bound (l : nat) (evs : list event) : option val :=
  match evs with
  | [] => None
  | Bound x k :: r => if Nat.eqb k l then Some x else first_bound l r
  | Renamed _ _ :: r => first_bound l r
  end.
Fixpoint last_renamed (l : nat) (evs : list event) : option val :=
  match evs with
  | [] => None
  | Bound _ _ :: r => last_renamed l r
  | Renamed x k :: r => match last_renamed l r with
                        | Some y => Some y
                        | None => if Nat.eqb k l then Some x else None
                        end
  end.
(** The last renaming counts, or else the name it had, or else the first binding. *)
Definition named (before : option val) (l : nat) (evs : list event) : option val :=
  match last_renamed l evs with
  | Some x => Some x
  | None => match before with Some x => Some x | None => first_bound l evs end
  end.

Section Runs.
  Variable prim : N -> list val -> heap -> option presult.
  Variables p_name p_rename : N.
  Hypothesis PR : p_name <> p_rename.

  (** The bindings of the instruction [i]: variables of define-values, let-values and
      letrec-values receive values; the renamings are the calls of the primitive. *)
  Fixpoint bindings (d : data) (ids : list ident) (vs : list val) : list event :=
    match ids, vs with
    | x :: xr, v :: vr =>
        match v, clo_at (RV v) d with VPtr l, Some _ => [Bound (ident_val x) l] | _, _ => [] end ++ bindings d xr vr
    | _, _ => []
    end.
  Definition happens (i : instr nat code) (m : mst) : list event :=
    match i with
    | Ibind_values _ n ids | Itl_bind_values n ids =>
        match result_vals m with Some vs => bindings (m_data m) ids vs | None => [] end
    | Iccall p => if N.eqb p p_rename then match frame_args m with Some [VPtr l; x] => [Renamed x l] | _ => [] end else []
    | _ => []
    end.

  (** Runs with what happened in them. *)
  Inductive nruns : mst * names -> list event -> mst * names -> Prop :=
  | NuRefl s : nruns s [] s
  | NuStep s i s1 evs s2 :
      nth_error (instrs_of (m_code (fst s))) (m_pc (fst s)) = Some i -> nstep prim p_name p_rename s = Some s1 ->
      nruns s1 evs s2 -> nruns s (happens i (fst s) ++ evs) s2.

  Lemma nruns_reaches s s' : nreaches prim p_name p_rename s s' -> exists evs, nruns s evs s'.
  Proof.
    induction 1 as [s|s s1 s2 H R [evs U]]; [eexists; constructor|].
    destruct (nth_error (instrs_of (m_code (fst s))) (m_pc (fst s))) as [i|] eqn:E.
    - eexists. econstructor; eauto.
    - unfold nstep in H. rewrite E in H. discriminate.
  Qed.

  Lemma last_renamed_app l a b : last_renamed l (a ++ b) = match last_renamed l b with Some x => Some x | None => last_renamed l a end.
  Proof.
    induction a as [|[x k|x k] a IH]; simpl; auto; [destruct (last_renamed l b); auto|].
    rewrite IH. destruct (last_renamed l b); auto.
  Qed.
  Lemma first_bound_app l a b : first_bound l (a ++ b) = match first_bound l a with Some x => Some x | None => first_bound l b end.
  Proof. induction a as [|[x k|x k] a IH]; simpl; auto. destruct (k =? l); auto. Qed.
  Lemma named_app before l a b : named before l (a ++ b) = named (named before l a) l b.
  Proof.
    unfold named. rewrite last_renamed_app, first_bound_app. destruct (last_renamed l b); auto. destruct (last_renamed l a); auto. destruct before; auto.
  Qed.
  Lemma bindings_not_renamed d l ids : forall vs, last_renamed l (bindings d ids vs) = None.
  Proof.
    induction ids as [|x xr IH]; intros [|v vr]; simpl; auto. destruct v; simpl; auto. destruct (clo_ref l0 (d_clos d)); simpl; auto.
  Qed.

  Lemma name_all_named d l ids : forall vs nm, name_all d ids vs nm l = named (nm l) l (bindings d ids vs).
  Proof.
    induction ids as [|x xr IH]; intros [|v vr] nm; simpl; try (unfold named; simpl; destruct (nm l); reflexivity).
    rewrite IH, named_app. f_equal. unfold name_if_closure. destruct v; try (unfold named; simpl; destruct (nm l); reflexivity).
    simpl. destruct (clo_ref l0 (d_clos d)); [|unfold named; simpl; destruct (nm l); reflexivity].
    unfold named. simpl. destruct (nm l0) as [y|] eqn:E.
    - destruct (nm l) eqn:F; auto; destruct (Nat.eqb_spec l0 l); congruence.
    - unfold set_name. rewrite (Nat.eqb_sym l l0). destruct (Nat.eqb_spec l0 l) as [->|]; [rewrite E; auto|destruct (nm l); auto].
  Qed.

  Lemma after_named i m nm l m' : exec (nprim prim p_name p_rename nm) i m = Next m' ->
    names_after p_name p_rename i m nm l = named (nm l) l (happens i m).
  Proof.
    assert (Z : nm l = named (nm l) l []) by (unfold named; simpl; destruct (nm l); auto).
    intros E. destruct i; try exact Z.
    - simpl. destruct (N.eqb_spec p p_name) as [->|].
      + destruct (N.eqb_spec p_name p_rename); [contradiction|]. exact Z.
      + destruct (N.eqb_spec p p_rename); [|exact Z]. destruct (frame_args m) as [[|[] [|x [|]]]|]; try exact Z.
        unfold named, set_name. simpl. rewrite (Nat.eqb_sym l l0). destruct (l0 =? l), (nm l); auto.
    - cbn [names_after happens exec] in *. destruct (result_vals m) as [vs|]; [|exact Z]. destruct (List.length vs =? n); [|discriminate].
      apply name_all_named.
    - cbn [names_after happens exec] in *. destruct (result_vals m) as [vs|]; [|exact Z]. destruct (List.length vs =? n); [|discriminate].
      apply name_all_named.
  Qed.

  (** ** C72 *)

  (** For every run of the machine, from any state. *)
  Theorem C72_names_from_history s evs s' l : nruns s evs s' -> snd s' l = named (snd s l) l evs.
  Proof.
    induction 1 as [s|s i s1 evs s2 E H R IH]; [unfold named; simpl; destruct (snd s l); reflexivity|].
    rewrite named_app, IH. f_equal. unfold nstep in H. rewrite E in H.
    destruct (exec (nprim prim p_name p_rename (snd s)) i (fst s)) as [m'| | | |] eqn:X; try discriminate. injection H as <-. simpl.
    eapply after_named; eauto.
  Qed.

  (** A procedure that has a name keeps it as long as nobody renames it. *)
  Theorem C72_names_stay s evs s' l x : nruns s evs s' -> snd s l = Some x -> (forall y, ~ In (Renamed y l) evs) -> snd s' l = Some x.
  Proof.
    intros R N NR. rewrite (C72_names_from_history _ _ _ _ R), N. unfold named.
    assert (last_renamed l evs = None) as ->; auto. clear - NR. induction evs as [|[y k|y k] r IH]; simpl; auto.
    - apply IH. intros z Z. apply (NR z). right. auto.
    - rewrite IH; [|intros z Z; apply (NR z); right; auto]. destruct (Nat.eqb_spec k l); auto. subst. destruct (NR y). left. auto.
  Qed.

  (** define-values: the variable has its value, and a procedure without a name gets
      that of the first variable it is the value of. *)
  Lemma bindings_name d l ids : forall vs k x,
    nth_error ids k = Some x -> nth_error vs k = Some (VPtr l) -> clo_ref l (d_clos d) <> None -> (forall j, j < k -> nth_error vs j <> Some (VPtr l)) ->
    first_bound l (bindings d ids vs) = Some (ident_val x).
  Proof.
    induction ids as [|y r IH]; intros vs k x I V C F; [destruct k; discriminate|]. destruct vs as [|v vr]; [destruct k; discriminate|].
    destruct k as [|k].
    - injection I as ->. injection V as ->. simpl. destruct (clo_ref l (d_clos d)); [|contradiction]. simpl. rewrite Nat.eqb_refl. auto.
    - simpl in *. rewrite first_bound_app, (IH vr k x I V C).
      + destruct v; simpl; auto. destruct (clo_ref l0 (d_clos d)); simpl; auto. destruct (Nat.eqb_spec l0 l); auto. subst. destruct (F 0 (Nat.lt_0_succ k)). auto.
      + intros j J. apply (F (S j)). lia.
  Qed.
  Lemma glob_ref_set_other x y v g : x <> y -> glob_ref x (glob_set y v g) = glob_ref x g.
  Proof.
    intros N. induction g as [|[z w] g IH]; simpl.
    - destruct (ident_eqb_spec y x); congruence.
    - destruct (ident_eqb_spec z y); simpl; destruct (ident_eqb_spec z x); auto; try congruence.
  Qed.
  Lemma glob_ref_set_same x v g : glob_ref x (glob_set x v g) = Some v.
  Proof.
    induction g as [|[z w] g IH]; simpl; [rewrite ident_eqb_refl; auto|]. destruct (ident_eqb_spec z x); simpl; destruct (ident_eqb_spec z x); congruence.
  Qed.
  Lemma tl_bind_other ids : forall vs d d' x, tl_bind_all d ids vs = Some d' -> ~ In x ids -> glob_ref x (d_glob d') = glob_ref x (d_glob d).
  Proof.
    induction ids as [|y r IH]; intros [|v vr] d d' x H N; try discriminate; simpl in H; [injection H as <-; auto|].
    rewrite (IH _ _ _ x H); [|intros I; apply N; right; auto]. simpl. apply glob_ref_set_other. intros ->. apply N. left. auto.
  Qed.
  Lemma tl_bind_value ids : forall vs d d' k x v, tl_bind_all d ids vs = Some d' -> NoDup ids -> nth_error ids k = Some x -> nth_error vs k = Some v ->
    glob_ref x (d_glob d') = Some v.
  Proof.
    induction ids as [|y r IH]; intros vs d d' k x v H ND I V; [destruct k; discriminate|]. destruct vs as [|w vr]; [discriminate|].
    inversion ND; subst. simpl in H. destruct k as [|k]; simpl in I, V.
    - injection I as ->. injection V as ->. rewrite (tl_bind_other _ _ _ _ _ H H2). simpl. apply glob_ref_set_same.
    - eapply IH; eauto.
  Qed.
  Theorem C72_defined_procedure m nm m' nm' n ids vs k x l :
    nth_error (instrs_of (m_code m)) (m_pc m) = Some (Itl_bind_values n ids) -> result_vals m = Some vs -> NoDup ids ->
    nth_error ids k = Some x -> nth_error vs k = Some (VPtr l) -> clo_ref l (d_clos (m_data m)) <> None ->
    nstep prim p_name p_rename (m, nm) = Some (m', nm') ->
    global_value (d_glob (m_data m')) x = VPtr l /\
    (forall y, nm l = Some y -> nm' l = Some y) /\
    (nm l = None -> (forall j, j < k -> nth_error vs j <> Some (VPtr l)) -> nm' l = Some (ident_val x)).
  Proof.
    intros E V ND I W C H. unfold nstep in H. cbn [fst snd] in H. rewrite E in H.
    destruct (exec (nprim prim p_name p_rename nm) (Itl_bind_values n ids) m) as [m1| | | |] eqn:X; try discriminate.
    assert (A := after_named _ _ _ l _ X).
    assert (HN : names_after p_name p_rename (Itl_bind_values n ids) m nm = nm') by congruence.
    assert (m1 = m') as -> by congruence. rewrite HN in A. clear H HN.
    cbn [exec] in X. rewrite V in X. destruct (List.length vs =? n) eqn:L; [|discriminate].
    destruct (tl_bind_all (m_data m) ids vs) as [d'|] eqn:T; [|discriminate]. injection X as <-. cbn [m_data goto set_r0 set_data].
    assert (HP : happens (Itl_bind_values n ids) m = bindings (m_data m) ids vs) by (cbn [happens]; rewrite V; reflexivity).
    rewrite HP in A. split; [unfold global_value; rewrite (tl_bind_value _ _ _ _ _ _ _ T ND I W); auto|].
    split.
    - intros y Y. rewrite A. unfold named. rewrite bindings_not_renamed, Y. auto.
    - intros Y F. rewrite A. unfold named. rewrite bindings_not_renamed, Y. eapply bindings_name; eauto.
  Qed.

  (** procedure-rename returns a procedure of the given name that does the same ... *)
  Theorem C72_rename_partial m nm m' nm' l x :
    nth_error (instrs_of (m_code m)) (m_pc m) = Some (Iccall p_rename) -> frame_args m = Some [VPtr l; x] ->
    nstep prim p_name p_rename (m, nm) = Some (m', nm') ->
    exists k, m_r0 m' = RV (VPtr k) /\ clo_at (RV (VPtr k)) (m_data m') = clo_at (RV (VPtr l)) (m_data m) /\ nm' k = Some x /\
      forall j, j <> k -> nm' j = nm j.
  Proof.
    intros E F H. unfold nstep in H. cbn [fst snd] in H. rewrite E in H. cbn [exec names_after] in H.
    destruct (6 <? m_ac m); [discriminate|]. rewrite F in H. unfold nprim in H.
    destruct (N.eqb_spec p_rename p_name); [congruence|]. rewrite N.eqb_refl in H. injection H as <- <-. exists l.
    split; [reflexivity|]. split; [reflexivity|]. unfold set_name. rewrite Nat.eqb_refl. split; auto.
    intros j J. destruct (Nat.eqb_spec j l); congruence.
  Qed.
  (** ... but it is the argument itself: no call of procedure-rename leaves the name of
      its argument as it was, unless it was that name already. *)
  Theorem C72_rename_keeps_argument_refuted m nm m' nm' l x :
    nth_error (instrs_of (m_code m)) (m_pc m) = Some (Iccall p_rename) -> frame_args m = Some [VPtr l; x] ->
    nstep prim p_name p_rename (m, nm) = Some (m', nm') ->
    m_r0 m' = RV (VPtr l) /\ (nm l <> Some x -> nm' l <> nm l).
  Proof.
    intros E F H. unfold nstep in H. cbn [fst snd] in H. rewrite E in H. cbn [exec names_after] in H.
    destruct (6 <? m_ac m); [discriminate|]. rewrite F in H. unfold nprim in H.
    destruct (N.eqb_spec p_rename p_name); [congruence|]. rewrite N.eqb_refl in H. injection H as <- <-.
    split; [reflexivity|]. unfold set_name. rewrite Nat.eqb_refl. congruence.
  Qed.

  (** procedure-name answers with the name, or #f. *)
  Theorem C72_procedure_name m nm m' nm' l :
    nth_error (instrs_of (m_code m)) (m_pc m) = Some (Iccall p_name) -> frame_args m = Some [VPtr l] ->
    nstep prim p_name p_rename (m, nm) = Some (m', nm') ->
    m_r0 m' = RV (match nm l with Some x => x | None => VFalse end) /\ nm' = nm /\ m_data m' = m_data m.
  Proof.
    intros E F H. unfold nstep in H. cbn [fst snd] in H. rewrite E in H. cbn [exec names_after] in H.
    destruct (6 <? m_ac m); [discriminate|]. rewrite F in H. unfold nprim in H. rewrite N.eqb_refl in H. injection H as <- <-.
    split; [reflexivity|]. split; auto. simpl. unfold with_heap. destruct (m_data m); reflexivity.
  Qed.

  (** Names do not change what a program does that does not ask for them: a machine
      without the two primitives does the same, whatever the names are. *)
  Theorem C72_names_do_not_matter m m' nm :
    (forall vs h, prim p_name vs h = None) -> (forall vs h, prim p_rename vs h = None) ->
    reaches prim m m' -> exists nm', nreaches prim p_name p_rename (m, nm) (m', nm').
  Proof.
    intros PN PQ R. revert nm. induction R as [m|m m1 m2 S R IH]; intros nm; [eexists; constructor|].
    unfold step in S. destruct (nth_error (instrs_of (m_code m)) (m_pc m)) as [i|] eqn:E; [|discriminate].
    assert (X : exec (nprim prim p_name p_rename nm) i m = exec prim i m).
    { destruct i; try reflexivity. cbn [exec] in *. destruct (6 <? m_ac m); auto. destruct (frame_args m) as [vs|]; auto.
      unfold nprim. destruct (N.eqb_spec p p_name) as [->|]; [rewrite PN in S; discriminate|].
      destruct (N.eqb_spec p p_rename) as [->|]; [rewrite PQ in S; discriminate|]. reflexivity. }
    destruct (IH (names_after p_name p_rename i m nm)) as [nm' Q]. exists nm'. econstructor; [|exact Q].
    unfold nstep. cbn [fst snd]. rewrite E, X, S. reflexivity.
  Qed.
End Runs.

(** ** How a procedure is written *)

(** The written form shows whether there is a name and which. *)
Theorem C72_written_name a b : written_closure a = written_closure b ->
  (a = None <-> b = None) /\ forall x y, a = Some x -> b = Some y -> symbol_text x = symbol_text y.
Proof.
  destruct a as [x|], b as [y|]; cbn [written_closure]; intros E.
  - split; [split; discriminate|]. intros x' y' [= <-] [= <-]. apply app_inv_head in E. apply app_inv_tail in E. auto.
  - cbn in E. discriminate.
  - cbn in E. discriminate.
  - split; [tauto|]. discriminate.
Qed.

(** ** What an arity error tells *)

Definition accepts (cls : list clause) (n : nat) : Prop := exists c, In c cls /\ CompThm.takes c n.

Lemma sorted_least b : forall m n, sorted_from (Some m) b -> includes b n -> m < n.
Proof.
  induction b as [|k| |k b IH]; simpl; intros m n S I; try contradiction; [lia|].
  destruct b; try (destruct S as [S1 S2]; destruct I as [I|I]; [lia|]; specialize (IH k n S2 I); lia). lia.
Qed.
Lemma clauses_sorted cls : forall a a', sorted_from None a -> clauses_arity a cls = Some a' -> sorted_from None a'.
Proof.
  induction cls as [|[fm b] r IH]; simpl; intros a a' S C; [congruence|].
  destruct (update_arity a (formals_len fm) (has_rest fm)) as [a1|] eqn:U; [|discriminate]. eapply IH; [|exact C]. eapply update_sorted; eauto.
Qed.

Lemma no_clauses e sc t s its s' : clauses_of e = Some [] -> compile e sc t s = Some (its, s') -> False.
Proof.
  intros CO C. apply compile_sound in C.
  assert (PO : exists bounds, proc_of e = Some ([], bounds)) by (destruct e; try discriminate; injection CO as CO; rewrite ?CO; eexists; reflexivity).
  destruct PO as [bounds PO]. inversion C; subst; try discriminate. rewrite PO in H. injection H as <- <-.
  apply (proc_cls _ _ _ _ _ _ _ _ _ PO H0). reflexivity.
Qed.

(** For a procedure expression whose clauses meet the condition of C35: the report
    carries the procedure's name; the count it gives is the only one accepted, or the
    least one and all above it are accepted too, or the least one. *)
Theorem C72_arity_report_partial e cls sc t s its s' nm d l :
  clauses_of e = Some cls -> compile e sc t s = Some (its, s') -> rest_ascending 0 cls ->
  exists c idx, In (Ins (Imake_closure idx (List.length (free_vars e)))) its /\ template (tmpls s') idx = Some c /\
    forall env free, clo_ref l (d_clos d) = Some (Clo c env free) ->
    exists r, arity_report nm d (VPtr l) = Some (nm l, r) /\
      match r with
      | Exactly k => forall n, accepts cls n <-> n = k
      | AtLeast k => forall n, accepts cls n <-> k <= n
      | Between k _ => accepts cls k /\ forall n, accepts cls n -> k <= n
      end.
Proof.
  intros CO C RA. destruct (proc_code_arity _ _ _ _ _ _ _ CO C) as [c [idx [I [T A]]]].
  exists c, idx. split; auto. split; auto. intros env free L.
  assert (INC : forall n, includes (arity_of c) n <-> accepts cls n).
  { intros n. rewrite (clauses_arity_ok cls ANull (arity_of c) 0 Logic.I (le_n _) RA A n). simpl. unfold accepts. tauto. }
  assert (SO := clauses_sorted cls ANull (arity_of c) Logic.I A).
  assert (NE : exists n, accepts cls n).
  { destruct cls as [|[fm b] r].
    - exfalso. apply (no_clauses e sc t s its s' CO C).
    - exists (List.length (req fm)). exists (fm, b). split; [left; auto|]. unfold CompThm.takes. simpl. destruct (rest fm); auto. }
  unfold arity_report. rewrite L. cbn [c_code]. destruct (arity_of c) as [|k| |k a] eqn:AR.
  - exfalso. destruct NE as [n N]. apply INC in N. simpl in N. auto.
  - exists (Exactly k). split; auto. intros n. rewrite <- INC. reflexivity.
  - exfalso. destruct NE as [n N]. apply INC in N. simpl in N. auto.
  - destruct a as [|j| |j a].
    1,2,4: eexists; split; [reflexivity|]; split; [apply INC; simpl; auto|]; intros n N; apply INC in N; cbn [includes] in N; destruct N as [N|N]; [lia|];
      destruct SO as [_ SO]; pose proof (sorted_least _ k n SO N); lia.
    exists (AtLeast k). split; auto. intros n. rewrite <- INC. reflexivity.
Qed.

(** The third kind of report tells nothing about the counts between: the procedure
    (case-lambda [(x) x] [(x y z) x]), called with two arguments, reports that it expected
    a count between 1 and the list (3). *)
Definition gap_cls : list clause := [(Formals [idx] None, [EVar idx]); (Formals [idx; idy; idz] None, [EVar idx])].
Theorem C72_arity_report_refuted :
  exists its s' c idx, compile (ECase gap_cls) [] true (CSt 0 []) = Some (its, s') /\ rest_ascending 0 gap_cls /\ template (tmpls s') idx = Some c /\
    accepts gap_cls 1 /\ accepts gap_cls 3 /\ ~ accepts gap_cls 2 /\
    forall nm d l env free, clo_ref l (d_clos d) = Some (Clo c env free) ->
      arity_report nm d (VPtr l) = Some (nm l, Between 1 (APair 3 ANull)).
Proof.
  eexists _, _, _, 0. split; [vm_compute; reflexivity|]. split; [simpl; intuition discriminate|]. split; [reflexivity|].
  split; [eexists; split; [left; reflexivity|reflexivity]|]. split; [eexists; split; [right; left; reflexivity|reflexivity]|].
  split; [intros (c & [<-|[<-|[]]] & T); unfold CompThm.takes in T; simpl in T; lia|].
  intros nm d l env free H. unfold arity_report. rewrite H. reflexivity.
Qed.

(** ** Programs *)

(** The procedures of the system have their names from the start (jitprims.c:27-30). *)
Fixpoint boot_names (sys : list (ident * sproc)) (l : nat) (nm : names) : names :=
  match sys with
  | [] => nm
  | (x, _) :: r => boot_names r (S l) (set_name l (ident_val x) nm)
  end.

Section Programs.
  Variable prim : N -> list val -> heap -> option presult.
  Variables p_name p_rename : N.
  Definition nends (s : mst * names) (r : rval) (s' : mst * names) : Prop :=
    exists s1, nreaches prim p_name p_rename s s1 /\ snd s' = snd s1 /\
      step (nprim prim p_name p_rename (snd s1)) (fst s1) = Done r (fst s').
  (** Each expression is compiled and run (compare C31's [execution]); [rs] are the results,
      one value each. *)
  Inductive nexecution : thread -> names -> list expr -> list val -> names -> Prop :=
  | NxNil t nm : nexecution t nm [] [] nm
  | NxVal t nm e es c r m nm1 v vs nm' :
      compile_top e = Some c -> nends (start c (t_stk t) 0 (t_vc t) (t_vals t) (t_data t), nm) r (m, nm1) ->
      result_vals m = Some [v] -> nexecution (left_by m) nm1 es vs nm' -> nexecution t nm (e :: es) (v :: vs) nm'.

  Fixpoint nrun (n : nat) (s : mst * names) : option (rval * (mst * names)) :=
    match n with
    | O => None
    | S k => match nstep prim p_name p_rename s with
             | Some s1 => nrun k s1
             | None => match step (nprim prim p_name p_rename (snd s)) (fst s) with
                       | Done r m => Some (r, (m, snd s))
                       | _ => None
                       end
             end
    end.
  Lemma nrun_ends n : forall s r s', nrun n s = Some (r, s') -> nends s r s'.
  Proof.
    induction n as [|n IH]; intros s r s' H; [discriminate|]. simpl in H. destruct (nstep prim p_name p_rename s) as [s1|] eqn:E.
    - destruct (IH _ _ _ H) as (s2 & R & X). exists s2. split; [econstructor; eauto|exact X].
    - destruct (step (nprim prim p_name p_rename (snd s)) (fst s)) eqn:D; try discriminate. injection H as <- <-. exists s. split; [constructor|]. auto.
  Qed.
End Programs.

Definition n_sys : list (ident * sproc) := [(values_id, PValues); (Id "procedure-name", PPrim 0 1); (Id "procedure-rename", PPrim 1 2)].
Definition sym (s : string) : expr := EConst (VSym (s2b s)).
(** [prog] is optimised, compiled and run in a fresh system, whatever the stack holds. *)
Definition gives (prog : list expr) (vs : list val) : Prop :=
  exists f es n d, optimize_program f 0 prog = Some (es, n) /\ boot_data n_sys no_data = Some d /\
    forall stk vc vals, exists nm, nexecution no_prim 0 1 (Thread stk vc vals d) (boot_names n_sys 0 no_names) es vs nm.
Ltac gives := exists 100; eexists _, _, _; split; [vm_compute; reflexivity|]; split; [vm_compute; reflexivity|]; intros stk vc vals; eexists;
  repeat (eapply NxVal; [vm_compute; reflexivity|apply (nrun_ends no_prim 0 1 100); vm_compute; reflexivity|reflexivity|]); constructor.
Definition name_of (e : expr) : expr := EApp (EVar (Id "procedure-name")) [e].
Definition thunk : expr := lam [] [num 1].

(** A definition and a let with one binding name the procedure after the variable. *)
Example C72_define_names :
  gives [EDefine [idf] thunk; name_of (EVar idf); EDefine [Id "g"] (EVar idf); name_of (EVar (Id "g")); name_of thunk; name_of (EVar values_id)]
        [VVoid; VSym (s2b "f"); VVoid; VSym (s2b "f"); VFalse; VSym (s2b "values")].
Proof. gives. Qed.
Example C72_let_names : gives [ELet [([idf], thunk)] [name_of (EVar idf)]] [VSym (s2b "f")].
Proof. gives. Qed.
(** (let-values ([(f) (lambda () 1)] [(g) 2]) (procedure-name f)): with two bindings the
    procedure is named after a temporary variable of the optimiser. *)
Theorem C72_let_refuted :
  gives [ELet [([idf], thunk); ([Id "g"], num 2)] [name_of (EVar idf)]] [VGensym (s2b "t0") 0].
Proof. gives. Qed.
(** So is every procedure made by letrec-values; defining a variable with it does not
    give it another name.  The accessors and mutators of record types are made in this
    way, and their errors name (procedure-name acc) (prelude.min:1411-1448). *)
Theorem C72_letrec_refuted :
  gives [EDefine [Id "g"] (ELetrec [([idf], thunk)] [EVar idf]); name_of (EVar (Id "g"))] [VVoid; VGensym (s2b "t0") 0].
Proof. gives. Qed.
(** procedure-rename changes its argument. *)
Theorem C72_rename_refuted :
  gives [EDefine [idf] thunk; EDefine [Id "g"] (EApp (EVar (Id "procedure-rename")) [EVar idf; sym "h"]); name_of (EVar idf)]
        [VVoid; VVoid; VSym (s2b "h")].
Proof. gives. Qed.

(** ** The hypotheses are met *)
Fixpoint nsteps (n : nat) (s : mst * names) : option (mst * names) :=
  match n with O => Some s | S k => match nstep no_prim 0 1 s with Some s1 => nsteps k s1 | None => None end end.
Definition at_define : option (mst * names) :=
  match compile_top (EDefine [idf; idx] (EMvValues [thunk; num 2])) with
  | Some c => nsteps 8 (start c (fun _ => SNone) 0 0 [] no_data, no_names)
  | None => None
  end.
Example C72_defined_procedure_met :
  exists m nm s, at_define = Some (m, nm) /\ nth_error (instrs_of (m_code m)) (m_pc m) = Some (Itl_bind_values 2 [idf; idx]) /\
    result_vals m = Some [VPtr 0; VFix 2] /\ NoDup [idf; idx] /\ clo_ref 0 (d_clos (m_data m)) <> None /\ nstep no_prim 0 1 (m, nm) = Some s.
Proof.
  eexists _, _, _. split; [vm_compute; reflexivity|]. split; [reflexivity|]. split; [reflexivity|].
  split; [repeat constructor; simpl; intuition discriminate|]. split; [discriminate|]. vm_compute. reflexivity.
Qed.
Definition at_rename : option (mst * names) :=
  match compile_top (EApp (EVar (Id "procedure-rename")) [thunk; sym "h"]), boot_data n_sys no_data with
  | Some c, Some d => nsteps 10 (start c (fun _ => SNone) 0 0 [] d, boot_names n_sys 0 no_names)
  | _, _ => None
  end.
Example C72_rename_met :
  exists m nm s, at_rename = Some (m, nm) /\ nth_error (instrs_of (m_code m)) (m_pc m) = Some (Iccall 1) /\
    frame_args m = Some [VPtr 3; VSym (s2b "h")] /\ nm 3 = None /\ nm 0 <> None /\ nstep no_prim 0 1 (m, nm) = Some s.
Proof.
  eexists _, _, _. split; [vm_compute; reflexivity|]. split; [reflexivity|]. split; [reflexivity|]. split; [reflexivity|]. split; [discriminate|].
  vm_compute. reflexivity.
Qed.
Print Assumptions C72_names_from_history.
Print Assumptions C72_names_stay.
Print Assumptions C72_defined_procedure.
Print Assumptions C72_rename_partial.
Print Assumptions C72_rename_keeps_argument_refuted.
Print Assumptions C72_procedure_name.
Print Assumptions C72_names_do_not_matter.
Print Assumptions C72_written_name.
Print Assumptions C72_arity_report_partial.
Print Assumptions C72_arity_report_refuted.
Print Assumptions C72_let_refuted.
Print Assumptions C72_letrec_refuted.
Print Assumptions C72_rename_refuted.
