(** C79: what the procedures of the library do when their text is read, compiled and
    evaluated.  The texts are in LibText.v, the specification ([is_member] and so on) in
    the first part of LibTextProofs.v. *)
From Coq Require Import ZArith NArith Bool Ascii String List Arith Lia.
From Verif Require Import Base Heap HeapM Ast Reader Sem EvalFun Check Lists SimLemmas LibText LibTextProofs LibTextRun.
Import ListNotations.
Local Open Scope list_scope.

(** The texts are read to their end, and evaluating them always succeeds. *)
Theorem C79_texts_read : Forall (fun t => exists o, read_object 400 (list_ascii_of_string t) = ROk o []) boot_texts.
Proof. unfold boot_texts. repeat constructor; eexists; vm_compute; reflexivity. Qed.
Theorem C79_texts_load prim lit s : exists s', loads prim lit s boot_texts s'.
Proof. eapply loads_some. apply boot_shaped. Qed.
(** ... which changes the values of the variables they define and of no others. *)
Theorem C79_texts_define prim lit s s' :
  good s -> loads prim lit s boot_texts s' ->
  good s' /\ (forall t, In t boot_texts -> loaded lit s' t) /\
  (forall y, ~ In y defined_names -> glob_ref (Id y) (glob_of s') = glob_ref (Id y) (glob_of s)).
Proof.
  intros G L. destruct (loads_all prim lit (fun _ _ => ErrNotProc VNull) (fun _ _ => ErrNotProc VNull) _ _ (boot_shaped lit) defined_once _ _ G L) as (A & _ & B & F). split; auto. split; auto.
  now apply Forall_forall.
Qed.

Section Boot.
  Variable prim : N -> list val -> heap -> option presult.
  Variable lit : obj -> val.
  Variable same : heap -> val -> val -> bool.
  Variable complaint : val -> val -> err.
  Variable complaintf : val -> list val -> err.
  Variables before after : store.
  Hypothesis B : booted prim lit same complaint complaintf before after.
  Lemma existsb_in x l : existsb (String.eqb x) l = true -> In x l.
  Proof. intros H. apply existsb_exists in H. destruct H as (y & I & E). apply String.eqb_eq in E. now subst. Qed.
  Ltac base H := eapply booted_has; [exact B|eapply H; exact (proj1 (proj2 (proj2 B)))|apply existsb_in; reflexivity].
  Ltac text := eapply booted_loaded; [exact B|unfold boot_texts; cbn [In]; repeat (first [left; reflexivity|right])].
  Ltac lib := first [apply incl_refl|apply B|text
    |base on_pair|base on_null|base on_list|base on_cons|base on_car|base on_cdr|base on_reverse|base on_not|base on_void|base on_equal
    |base on_same|base on_sum|base on_append|base on_index|base on_caar|base on_complaint|base on_complaintf|base on_difference|eassumption].
  Theorem C79_car : has library_names after "car" (is_car prim complaint).
  Proof. eapply (car_ok library_names) with (lit := lit); lib. Qed.
  Theorem C79_cdr : has library_names after "cdr" (is_cdr prim complaint).
  Proof. eapply (cdr_ok library_names) with (lit := lit); lib. Qed.
  Theorem C79_reverse : has library_names after "reverse" (is_reverse prim complaint).
  Proof. eapply (reverse_ok library_names) with (lit := lit); lib. Qed.
  Ltac lib2 := first [lib|exact C79_car|exact C79_cdr|exact C79_reverse].
  Theorem C79_cons_star : has library_names after "cons*" (is_cons_star prim).
  Proof. eapply (cons_star_ok library_names) with (lit := lit); lib2. Qed.
  Theorem C79_first : has library_names after "first" (is_first prim complaint).
  Proof. eapply (first_ok library_names) with (lit := lit); lib2. Qed.
  Theorem C79_second : has library_names after "second" (is_nth prim complaint complaintf "second" 1).
  Proof. eapply (second_ok library_names) with (lit := lit); lib2. Qed.
  Theorem C79_third : has library_names after "third" (is_nth prim complaint complaintf "third" 2).
  Proof. eapply (third_ok library_names) with (lit := lit); lib2. Qed.
  Theorem C79_fourth : has library_names after "fourth" (is_nth prim complaint complaintf "fourth" 3).
  Proof. eapply (fourth_ok library_names) with (lit := lit); lib2. Qed.
  Theorem C79_fifth : has library_names after "fifth" (is_nth prim complaint complaintf "fifth" 4).
  Proof. eapply (fifth_ok library_names) with (lit := lit); lib2. Qed.
  Theorem C79_sixth : has library_names after "sixth" (is_nth prim complaint complaintf "sixth" 5).
  Proof. eapply (sixth_ok library_names) with (lit := lit); lib2. Qed.
  Theorem C79_seventh : has library_names after "seventh" (is_nth prim complaint complaintf "seventh" 6).
  Proof. eapply (seventh_ok library_names) with (lit := lit); lib2. Qed.
  Theorem C79_eighth : has library_names after "eighth" (is_nth prim complaint complaintf "eighth" 7).
  Proof. eapply (eighth_ok library_names) with (lit := lit); lib2. Qed.
  Theorem C79_ninth : has library_names after "ninth" (is_nth prim complaint complaintf "ninth" 8).
  Proof. eapply (ninth_ok library_names) with (lit := lit); lib2. Qed.
  Theorem C79_tenth : has library_names after "tenth" (is_nth prim complaint complaintf "tenth" 9).
  Proof. eapply (tenth_ok library_names) with (lit := lit); lib2. Qed.
  Theorem C79_list_ref : has library_names after "list-ref" (is_list_ref prim complaint complaintf).
  Proof. eapply (list_ref_ok library_names) with (lit := lit); lib2. Qed.
  Theorem C79_member : has library_names after "member" (is_member prim complaint same).
  Proof. eapply (member_ok library_names) with (lit := lit); lib2. Qed.
  Theorem C79_remove : has library_names after "remove" (is_remove prim complaint same).
  Proof. eapply (remove_ok library_names) with (lit := lit); lib2. Qed.
  Theorem C79_remove_star : has library_names after "remove*" (is_remove_star prim complaint same).
  Proof. eapply (remove_star_ok library_names) with (lit := lit); lib2. Qed.
  Theorem C79_filter : has library_names after "filter" (is_filter library_names prim).
  Proof. eapply (filter_ok library_names) with (lit := lit); lib2. Qed.
  Theorem C79_foldl : has library_names after "foldl" (is_foldl library_names prim).
  Proof. eapply (foldl_ok library_names) with (lit := lit); lib2. Qed.
  Theorem C79_foldr : has library_names after "foldr" (is_foldr library_names prim).
  Proof. eapply (foldr_ok library_names) with (lit := lit); lib2. Qed.
  Theorem C79_assoc : has library_names after "assoc" (is_assoc prim same).
  Proof. eapply (assoc_ok library_names) with (lit := lit); lib2. Qed.
  Theorem C79_index_of : has library_names after "index-of" (is_index_of prim same).
  Proof. eapply (index_of_ok library_names) with (lit := lit); lib2. Qed.
  Theorem C79_list_set : has library_names after "list-set" (is_list_set prim complaint complaintf).
  Proof. eapply (list_set_ok library_names) with (lit := lit); lib2. Qed.
End Boot.

(** A finding: member cannot tell whether #f is an element. *)
Theorem C79_member_of_false prim lit same complaint complaintf before after :
  booted prim lit same complaint complaintf before after ->
  has library_names after "member" (fun s f =>
    forall l xs, list_at (heap_of s) l xs -> steady same (heap_of s) VFalse xs ->
      (forall x, In x xs -> same (heap_of s) x VFalse = true -> x = VFalse) -> returns prim s f [VFalse; l] VFalse).
Proof.
  intros B. destruct (C79_member _ _ _ _ _ _ _ B) as (f & G & N & H). exists f. split; auto. split; auto. intros s L GD l xs LA ST U.
  pose proof (proj1 (H s L GD) VFalse l xs ltac:(discriminate) LA ST) as R.
  destruct (find (fun x => same (heap_of s) x VFalse) xs) as [x|] eqn:F; auto. apply find_some in F. destruct F as [I E]. rewrite (U x I E) in R. exact R.
Qed.

(** A call has one outcome, so that nothing else can happen. *)
Theorem C79_only_outcome prim s f vs v y :
  (returns prim s f vs v -> forall o s', apply prim s f vs o s' -> o = RVals [v] /\ grows s s') /\
  (raises prim s f vs y -> forall o s', apply prim s f vs o s' -> o = RErr y /\ grows s s').
Proof.
  split; intros (s1 & A & G) o s2 H; destruct (proj2 (proj2 (proj2 (proj2 (proj2 (proj2 (eval_fun_all prim)))))) _ _ _ _ _ A _ _ H) as [<- <-]; auto.
Qed.

(** ** Example: a store with the procedures that the texts rely on *)
Section Chains.
  Lemma reach_ends h v xs t : reach h v xs t -> pair_at h t = None -> forall ys t', reach h v ys t' -> pair_at h t' = None -> xs = ys.
  Proof.
    induction 1 as [v|v a d xs t P R IH]; intros E ys t' R' E'; inversion R' as [|? a' d' ys' ? P' R'']; subst; auto; try congruence.
    rewrite P in P'. injection P' as <- <-. f_equal. eauto.
  Qed.
  Lemma reach_places h v xs t : reach h v xs t -> pair_at h t = None ->
    exists ls, List.length ls = List.length xs /\ NoDup ls /\ (forall l, In l ls -> l < List.length h) /\
      (forall l, In l ls -> exists ys, reach h (VPtr l) ys t /\ List.length ys <= List.length xs).
  Proof.
    induction 1 as [v|v a d xs t P R IH]; intros E; [exists []; split; [auto|split; [constructor|split; intros l []]]|].
    destruct (IH E) as (ls & A & B & C & D). pose proof P as P2. apply pair_at_inv in P2. destruct P2 as (l & -> & K).
    exists (l :: ls). cbn. split; [auto|]. split; [|split].
    - constructor; auto. intros I. destruct (D l I) as (ys & R2 & LE). assert (Q : ys = a :: xs); [|subst; cbn in LE; lia].
      eapply reach_ends; eauto. econstructor; eauto.
    - intros k [<-|I]; auto. apply nth_error_Some. congruence.
    - intros k [<-|I]; [exists (a :: xs); split; [econstructor; eauto|cbn; auto]|]. destruct (D k I) as (ys & R2 & LE). exists ys. split; auto.
  Qed.
  Lemma reach_length h v xs t : reach h v xs t -> pair_at h t = None -> List.length xs <= List.length h.
  Proof.
    intros R E. destruct (reach_places _ _ _ _ R E) as (ls & A & B & C & _). rewrite <- A, <- (seq_length (List.length h) 0).
    apply NoDup_incl_length; auto. intros l I. apply in_seq. specialize (C l I). lia.
  Qed.
  (** The elements of a chain and its tail. *)
  Fixpoint chain (n : nat) (h : heap) (v : val) : list val * val :=
    match n with
    | 0 => ([], v)
    | S m => match pair_at h v with Some (a, d) => let '(xs, t) := chain m h d in (a :: xs, t) | None => ([], v) end
    end.
  Lemma chain_reach h v xs t : reach h v xs t -> pair_at h t = None -> forall n, List.length xs <= n -> chain n h v = (xs, t).
  Proof.
    induction 1 as [v|v a d xs t P R IH]; intros E n L; destruct n as [|n]; cbn in *; try lia; auto; [now rewrite E|].
    rewrite P, (IH E n) by lia. reflexivity.
  Qed.
  Lemma chain_list h l xs : list_at h l xs -> chain (List.length h) h l = (xs, VNull).
  Proof. intros H. apply reach_list in H. apply chain_reach; auto. eapply reach_length; eauto. Qed.
End Chains.

Definition ex_same (h : heap) (a b : val) : bool := match a, b with VFix x, VFix y => Z.eqb x y | _, _ => false end.
Definition ex_text (who : val) : string := match who with VSym n => string_of_list_ascii n | _ => "" end.
Definition ex_complaint (who v : val) : err := ErrPrim (EArg (ex_text who) v).
Definition ex_complaintf (who : val) (vs : list val) : err := ErrPrim (EOther (ex_text who) vs).
Definition ex_new_list (xs : list val) (h : heap) : presult := let '(v, h') := new_list xs h in PrimVal v h'.
Definition ex_prim (n : N) (vs : list val) (h : heap) : option presult :=
  match n, vs with
  | 0%N, [v] => Some (PrimVal (of_bool (pairp h v)) h)
  | 1%N, [v] => Some (PrimVal (of_bool (nullp v)) h)
  | 2%N, [v] => Some (PrimVal (of_bool (nullp (snd (chain (List.length h) h v)))) h)
  | 3%N, [a; d] => Some (PrimVal (VPtr (List.length h)) (h ++ [CPair a d]))
  | 4%N, [v] => match pair_at h v with Some (a, d) => Some (PrimVal a h) | None => None end
  | 5%N, [v] => match pair_at h v with Some (a, d) => Some (PrimVal d h) | None => None end
  | 6%N, [v] => Some (ex_new_list (rev (fst (chain (List.length h) h v))) h)
  | 7%N, [v] => Some (PrimVal (of_bool (negb (truthy v))) h)
  | 8%N, [] => Some (PrimVal VVoid h)
  | 9%N, [a; b] => Some (PrimVal (of_bool (ex_same h a b)) h)
  | 10%N, [VFix a; VFix b] => Some (PrimVal (of_bool (Z.eqb a b)) h)
  | 11%N, [VFix a; VFix b] => Some (PrimVal (VFix (a + b)) h)
  | 12%N, [k; l] => Some (ex_new_list (fst (chain (List.length h) h k) ++ fst (chain (List.length h) h l)) h)
  | 13%N, [v] => Some (PrimVal (of_bool (match v with VFix z => (0 <=? z)%Z | _ => false end)) h)
  | 14%N, [v] => match pair_at h v with
                 | Some (w, _) => match pair_at h w with Some (a, _) => Some (PrimVal a h) | None => None end
                 | None => None
                 end
  | 15%N, [who; _; v] => Some (PrimErr (EArg (ex_text who) v) h)
  | 16%N, [who; l] => Some (PrimErr (EOther (ex_text who) (List.tl (fst (chain (List.length h) h l)))) h)
  | 17%N, [VFix a; VFix b] => Some (PrimVal (VFix (a - b)) h)
  | _, _ => None
  end.
Definition ex_arities : list nat := [1; 1; 1; 2; 1; 1; 1; 1; 0; 2; 2; 2; 2; 1; 1; 3; 2; 2].
Fixpoint ex_install (n : N) (xs : list (string * nat)) (s : store) : store :=
  match xs with
  | [] => s
  | (x, k) :: r => let '(v, s1) := new_proc (PPrim n k) s in ex_install (N.succ n) r (set_glob (Id x) v s1)
  end.
(** (lambda (who . vs) (complain who vs)), for a procedure of two arguments. *)
Definition ex_errorf : sproc :=
  PClo [(Formals [Id "who"] (Some (Id "vs")), [EApp (EConst (VPtr 16)) [EVar (Id "who"); EVar (Id "vs")]])] [].
Definition ex_before : store :=
  let '(v, s) := new_proc ex_errorf (ex_install 0 (combine base_names ex_arities) (Store [] [] [] [])) in set_glob (Id "errorf") v s.
Definition ex_lit (o : obj) : val :=
  match o with ONull => VNull | OFalse => VFalse | OFix z => VFix z | OSym n => VSym n | _ => VVoid end.

Lemma ex_good : good ex_before.
Proof.
  intros l p H. assert (K : forall ps, proc_ref l ps = Some p -> In l (map fst ps)).
  { induction ps as [|[k q] ps IH]; cbn; [discriminate|]. destruct (Nat.eqb_spec k l); auto. }
  apply K in H. revert H. vm_compute. intuition lia.
Qed.
Lemma ex_has x l n k (B : store -> val -> Prop) :
  glob_ref (Id x) (glob_of ex_before) = Some (VPtr l) -> proc_ref l (procs_of ex_before) = Some (PPrim n k) ->
  (forall s, good s -> proc_at (VPtr l) (procs_of s) = Some (PPrim n k) -> B s (VPtr l)) -> has base_names ex_before x B.
Proof. intros G P H. exists (VPtr l). split; auto. split; [discriminate|]. intros s [L _] GD. apply H; auto. now apply L. Qed.
Lemma ex_returns s f n vs v h :
  proc_at f (procs_of s) = Some (PPrim n (List.length vs)) -> List.length vs <= 6 -> ex_prim n vs (heap_of s) = Some (PrimVal v h) ->
  extends (heap_of s) h -> apply ex_prim s f vs (RVals [v]) (set_heap h s) /\ grows s (set_heap h s).
Proof. intros P L E X. split; [eapply ApPrim; eauto|now apply grows_set_heap]. Qed.
Lemma ex_raises s f n vs e :
  proc_at f (procs_of s) = Some (PPrim n (List.length vs)) -> List.length vs <= 6 -> ex_prim n vs (heap_of s) = Some (PrimErr e (heap_of s)) ->
  raises ex_prim s f vs (ErrPrim e).
Proof. intros P L E. exists (set_heap (heap_of s) s). split; [eapply ApPrimErr; eauto|apply grows_set_heap, extends_refl]. Qed.
Lemma ex_value s f n vs v :
  proc_at f (procs_of s) = Some (PPrim n (List.length vs)) -> List.length vs <= 6 -> ex_prim n vs (heap_of s) = Some (PrimVal v (heap_of s)) ->
  returns ex_prim s f vs v.
Proof. intros P L E. exists (set_heap (heap_of s) s). eapply ex_returns; eauto. apply extends_refl. Qed.
Lemma ex_list s f n vs xs :
  proc_at f (procs_of s) = Some (PPrim n (List.length vs)) -> List.length vs <= 6 -> ex_prim n vs (heap_of s) = Some (ex_new_list xs (heap_of s)) ->
  returns_list ex_prim s f vs xs.
Proof.
  intros P L E. unfold ex_new_list in E. pose proof (new_list_at xs (heap_of s)) as NL. destruct (new_list xs (heap_of s)) as [v h] eqn:K.
  exists v, (set_heap h s). cbn in NL. destruct (ex_returns s f n vs v h P L E) as [A B]; auto. unfold new_list in K. injection K as _ <-. apply extends_app.
Qed.
Lemma ex_errorf_ok s l :
  proc_at (VPtr l) (procs_of s) = Some ex_errorf -> proc_at (VPtr 16) (procs_of s) = Some (PPrim 16 2) -> is_complaintf ex_prim ex_complaintf s (VPtr l).
Proof.
  intros P Q who fmt vs NW. apply raises_run. eapply runap_rest1; [exact P|exact NW|]. intros s1 b c k G C1 C2 LK. apply runseq_one.
  exists (RErr (ex_complaintf who vs)), (set_heap (heap_of s1) s1). split; [|split; auto].
  - eapply EvApp.
    + apply E1Val. constructor.
    + eapply EaCons; [apply E1Val; eapply EvLocal; [reflexivity|apply C1|apply C1]|].
      eapply EaCons; [apply E1Val; eapply EvLocal; [reflexivity|apply C2|apply C2]|]. constructor.
    + eapply ApPrimErr; [exact (grows_proc _ _ _ _ G Q)|cbn; lia|]. cbn [ex_prim]. now rewrite (chain_list _ _ _ LK).

Qed.
Lemma ex_relies : relies ex_prim ex_same ex_complaint ex_complaintf ex_before.
Proof.
  constructor.
  17: { exists (VPtr 18). split; [vm_compute; reflexivity|]. split; [discriminate|]. intros s [L _] GD. apply ex_errorf_ok; apply L; vm_compute; reflexivity. }
  1-17: match goal with |- has _ _ ?x _ =>
    let g := eval vm_compute in (glob_ref (Id x) (glob_of ex_before)) in
    match g with Some (VPtr ?l) => let p := eval vm_compute in (proc_ref l (procs_of ex_before)) in
      match p with Some (PPrim ?n ?k) => apply (ex_has x l n k); [vm_compute; reflexivity|vm_compute; reflexivity|intros s GD P] end end end.
  - intros v. eapply ex_value; [exact P|cbn; lia|reflexivity].
  - intros v. eapply ex_value; [exact P|cbn; lia|reflexivity].
  - split.
    + intros l xs H. eapply ex_value; [exact P|cbn; lia|]. cbn [ex_prim]. now rewrite (chain_list _ _ _ H).
    + intros l xs t R [T1 T2]. eapply ex_value; [exact P|cbn; lia|]. cbn [ex_prim]. pose proof (no_pair_at _ _ T1) as E.
      rewrite (chain_reach _ _ _ _ R E) by (eapply reach_length; eauto). cbn [snd]. destruct t; auto. congruence.
  - intros a d. exists (VPtr (List.length (heap_of s))), (set_heap (heap_of s ++ [CPair a d]) s).
    destruct (ex_returns s _ 3 [a; d] _ _ P ltac:(cbn; lia) eq_refl (extends_app _ _)) as [A B]. split; auto. split; auto.
    cbn. now rewrite nth_error_app2, Nat.sub_diag by lia.
  - intros v a d E. eapply ex_value; [exact P|cbn; lia|]. cbn [ex_prim]. now rewrite E.
  - intros v a d E. eapply ex_value; [exact P|cbn; lia|]. cbn [ex_prim]. now rewrite E.
  - intros l xs H. eapply ex_list; [exact P|cbn; lia|]. cbn [ex_prim]. now rewrite (chain_list _ _ _ H).
  - intros v. eapply ex_value; [exact P|cbn; lia|reflexivity].
  - eapply ex_value; [exact P|cbn; lia|reflexivity].
  - intros a b. eapply ex_value; [exact P|cbn; lia|reflexivity].
  - intros a b. eapply ex_value; [exact P|cbn; lia|reflexivity].
  - intros a b _ _ _. eapply ex_value; [exact P|cbn; lia|reflexivity].
  - intros k l xs ys H1 H2. eapply ex_list; [exact P|cbn; lia|]. cbn [ex_prim]. now rewrite (chain_list _ _ _ H1), (chain_list _ _ _ H2).
  - intros v. eapply ex_value; [exact P|cbn; lia|reflexivity].
  - intros v w a d e E1 E2. eapply ex_value; [exact P|cbn; lia|]. cbn [ex_prim]. now rewrite E1, E2.
  - intros who what v. eapply ex_raises; [exact P|cbn; lia|reflexivity].
  - intros a b _ _ _. eapply ex_value; [exact P|cbn; lia|reflexivity].
Qed.
(** ... and the store after evaluating the texts there. *)
Example booted_example : exists s, booted ex_prim ex_lit ex_same ex_complaint ex_complaintf ex_before s.
Proof.
  destruct (C79_texts_load ex_prim ex_lit ex_before) as [s L]. exists s. split; [repeat split|]. split; [apply ex_good|]. split; [apply ex_relies|exact L].
Qed.
(** (member 2 '(1 2 3)), (index-of 3 '(1 2 3)), (list-set '(1 2 3) 1 9) in any later store that has this list. *)
Example calls_example s s1 l :
  booted ex_prim ex_lit ex_same ex_complaint ex_complaintf ex_before s -> later library_names s s1 -> good s1 ->
  list_at (heap_of s1) l [VFix 1; VFix 2; VFix 3] ->
  exists f g k, glob_ref (Id "member") (glob_of s1) = Some f /\ returns ex_prim s1 f [VFix 2; l] (VFix 2) /\
    glob_ref (Id "index-of") (glob_of s1) = Some g /\ returns ex_prim s1 g [VFix 3; l] (VFix 2) /\
    glob_ref (Id "list-set") (glob_of s1) = Some k /\ returns_list ex_prim s1 k [l; VFix 1; VFix 9] [VFix 1; VFix 9; VFix 3].
Proof.
  intros B L G H. pose proof (C79_member _ _ _ _ _ _ _ B) as (f & F1 & F2 & F3). pose proof (C79_index_of _ _ _ _ _ _ _ B) as (g & G1 & G2 & G3).
  pose proof (C79_list_set _ _ _ _ _ _ _ B) as (k & K1 & K2 & K3).
  assert (ST : forall v xs, steady ex_same (heap_of s1) v xs) by (intros v xs h x _ _; split; reflexivity).
  exists f, g, k. rewrite !(proj2 L) by (apply existsb_in; reflexivity).
  split; auto. split; [exact (proj1 (F3 s1 L G) (VFix 2) l _ ltac:(discriminate) H (ST _ _))|].
  split; auto. split; [exact (G3 s1 L G (VFix 3) l _ ltac:(discriminate) H ltac:(cbn; lia) (ST _ _))|].
  split; auto. exact (proj1 (proj1 (K3 s1 L G) l _ 1 (VFix 9) ltac:(discriminate) H ltac:(cbn; lia)) ltac:(cbn; lia)).
Qed.

(** (third '(1 2 3)), (fourth '(1 2 3)) and (remove* '(3 1) '(1 2 3)). *)
Example accessors_example s s1 l k :
  booted ex_prim ex_lit ex_same ex_complaint ex_complaintf ex_before s -> later library_names s s1 -> good s1 ->
  list_at (heap_of s1) l [VFix 1; VFix 2; VFix 3] -> list_at (heap_of s1) k [VFix 3; VFix 1] ->
  exists f g r, glob_ref (Id "third") (glob_of s1) = Some f /\ returns ex_prim s1 f [l] (VFix 3) /\
    glob_ref (Id "fourth") (glob_of s1) = Some g /\ raises ex_prim s1 g [l] (ex_complaintf (sym "fourth") [l]) /\
    glob_ref (Id "remove*") (glob_of s1) = Some r /\ returns_list ex_prim s1 r [k; l] [VFix 2].
Proof.
  intros B L G H HK. pose proof (C79_third _ _ _ _ _ _ _ B) as (f & F1 & F2 & F3). pose proof (C79_fourth _ _ _ _ _ _ _ B) as (g & G1 & G2 & G3).
  pose proof (C79_remove_star _ _ _ _ _ _ _ B) as (r & K1 & K2 & K3).
  assert (ST : forall v xs, steady ex_same (heap_of s1) v xs) by (intros v xs h x _ _; split; reflexivity).
  exists f, g, r. rewrite !(proj2 L) by (apply existsb_in; reflexivity).
  split; auto. split; [exact (proj1 (F3 s1 L G) l _ (VFix 3) H eq_refl)|].
  split; auto. split; [exact (proj1 (proj2 (G3 s1 L G)) l _ H ltac:(cbn; lia))|].
  split; auto. exact (proj1 (K3 s1 L G) k _ l _ HK H (fun v _ => ST v _)).
Qed.

(** A procedure with a state of its own, as filter, foldl and foldr may be given:
    (let ([n 0]) (lambda (x) (set! n (+ n 1)) n)). *)
Definition counter (c : nat) : sproc :=
  PClo [(Formals [Id "x"] None, [ESet (Id "n") (EApp (EVar (Id "+")) [EVar (Id "n"); EConst (VFix 1)]); EVar (Id "n")])] [(Id "n", c)].
Example counter_acts prim s0 f c :
  has library_names s0 "+" (is_sum prim) ->
  acts library_names prim f Z
    (fun w s => proc_at f (procs_of s) = Some (counter c) /\ later library_names s0 s /\ nth_error (cells_of s) c = Some (VFix w))
    (fun _ i => i = c)
    (fun w vs v w' => (0 <= w < 2 ^ 61)%Z /\ (exists x, vs = [x]) /\ w' = (w + 1)%Z /\ v = VFix w').
Proof.
  intros HS. constructor.
  - intros w vs v w' s (W & (x & ->) & -> & ->) (P & L & C) G.
    assert (LC : c < List.length (cells_of s)) by (apply nth_error_Some; congruence).
    set (r := [(Id "x", List.length (cells_of s)); (Id "n", c)]).
    assert (G1 : grows s (add_cells [x] s)) by apply grows_add_cells.
    assert (C1 : cell_is (add_cells [x] s) c (VFix w)) by (eapply grows_cell; [exact G1|split; [auto|discriminate]]).
    assert (RUN : run prim false r (add_cells [x] s) (EApp (EVar (Id "+")) [EVar (Id "n"); EConst (VFix 1)])
                    (fun o s2 => o = RVals [VFix (w + 1)] /\ grows s s2)).
    { eapply run_call; [exact HS|reflexivity|apply existsb_in; reflexivity|eapply later_trans; [exact L|apply grows_later, G1]|].
      apply runargs_cons. eapply run_local; [reflexivity|exact C1|]. apply runargs_cons, run_const, runargs_nil. cbv beta iota.
      split; [eapply later_trans; [exact L|apply grows_later, G1]|]. split; [exact (grows_good _ _ G1 G)|]. intros g B.
      eapply runap_returns; [apply B; lia|]. intros s2 G2. split; auto. eapply grows_trans; eauto. }
    destruct RUN as (o & s2 & EV & -> & G2). pose proof G2 as (E2 & P2 & (e2 & K2) & GL2 & GG2).
    assert (L2 : c < List.length (cells_of s2)) by (rewrite K2, app_length; lia).
    exists (set_cell c (VFix (w + 1)) s2). split; [|split; [split; [|split]|split; [|split; [|split; [|split; [|split]]]]]].
    + eapply ApClo; [exact P|reflexivity|reflexivity|]. eapply EsCons; [eapply EvSetLocal; [exact EV|reflexivity|exact L2]|].
      apply EsLast. eapply EvLocal; [reflexivity| |discriminate]. cbn. now apply SimLemmas.set_nth_eq.
    + exact (grows_proc _ _ _ _ G2 P).
    + eapply later_trans; [exact L|]. exact (grows_later _ _ _ G2).
    + cbn. now apply SimLemmas.set_nth_eq.
    + exact (GG2 G).
    + exact (grows_later _ _ _ G2).
    + exact (extends_kept _ _ E2).
    + cbn. rewrite SimLemmas.set_nth_length, K2, app_length. lia.
    + intros i LI NI. cbn. rewrite SimLemmas.set_nth_ne by auto. rewrite K2. now apply nth_error_app1.
    + auto.
  - intros w s i (_ & _ & C) ->. apply nth_error_Some. congruence.
  - intros w s s' (P & L & C) G. split; [eapply grows_proc; eauto|]. split; [eapply later_trans; [exact L|now apply grows_later]|].
    destruct G as (_ & _ & (e & K) & _). rewrite K, nth_error_app1; auto. apply nth_error_Some. congruence.
Qed.
Example counter_asked (a b : val) :
  asked (fun w vs v w' => (0 <= w < 2 ^ 61)%Z /\ (exists x : val, vs = [x]) /\ w' = (w + 1)%Z /\ v = VFix w') 5%Z [a; b] [a; b] 7%Z.
Proof.
  apply (AskCons _ 5%Z a [b] (VFix 6) 6%Z [b] 7%Z); [repeat split; eauto; lia|].
  apply (AskCons _ 6%Z b [] (VFix 7) 7%Z [] 7%Z); [repeat split; eauto; lia|constructor].
Qed.

Print Assumptions C79_texts_read.
Print Assumptions C79_texts_load.
Print Assumptions C79_texts_define.
Print Assumptions C79_car.
Print Assumptions C79_cdr.
Print Assumptions C79_reverse.
Print Assumptions C79_cons_star.
Print Assumptions C79_first.
Print Assumptions C79_second.
Print Assumptions C79_third.
Print Assumptions C79_fourth.
Print Assumptions C79_fifth.
Print Assumptions C79_sixth.
Print Assumptions C79_seventh.
Print Assumptions C79_eighth.
Print Assumptions C79_ninth.
Print Assumptions C79_tenth.
Print Assumptions C79_list_ref.
Print Assumptions C79_member.
Print Assumptions C79_remove.
Print Assumptions C79_remove_star.
Print Assumptions C79_filter.
Print Assumptions C79_foldl.
Print Assumptions C79_foldr.
Print Assumptions C79_assoc.
Print Assumptions C79_index_of.
Print Assumptions C79_list_set.
Print Assumptions C79_only_outcome.
Print Assumptions C79_member_of_false.
